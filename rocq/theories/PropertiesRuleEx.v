(** Rules extracted from a sentence pair. *)
From Coq Require Import List ZArith QArith Bool Reals.
From Verif Require Import Opt Fix FixSpec RuleEx RuleExSpec RuleExProofs RuleExTopProofs RuleExPlaceProofs RuleCount RuleCountSpec RuleCountProofs RuleExWitness.
Import ListNotations.
Close Scope R_scope.
Close Scope Q_scope.
Open Scope Z_scope.

(** C59.  Every extracted rule is a pair of spans with gaps that is consistent with the word
    alignment, lies around the occurrence, keeps the limits and is read off the words. *)
Theorem C59_sound : forall o p start phrase matching, fits o p start phrase matching ->
  exists es, (forall f, ExtractAlignments (Some f) o p start phrase matching = Some es) /\
    (forall e, In e es -> exists i, consistent p i /\ around o start phrase matching i /\ within_limits o p i e /\ reads p i e) /\
    (es <> [] -> aligned_terminals o p start phrase matching).
Proof. intros o p start phrase matching F. destruct (extract_sound o p start phrase matching F) as (es & E & R & T). exists es. split; [exact E|]. split; [|exact T]. apply Forall_forall. exact R. Qed.
Print Assumptions C59_sound.
(** Its alignment joins the symbols that stand for words linked in the sentence pair. *)
Theorem C59_links : forall p i e, consistent p i -> reads p i e -> forall a b,
  In (a, b) (e_align e) <-> exists s t, In (s, t) (links p) /\ (i_tl i <= t < i_th i /\ ~ in_gap (target_gaps i) t) /\ a = place (i_sl i) (i_source i) s /\ b = place (i_tl i) (target_gaps i) t /\
    0 <= a /\ 0 <= b /\ nth_error (e_source e) (Z.to_nat a) = nth_error (src p) (Z.to_nat s) /\ nth_error (e_target e) (Z.to_nat b) = nth_error (tgt p) (Z.to_nat t).
Proof. exact align_words. Qed.
Print Assumptions C59_links.
(** Finding: when phrases must be tight and the phrase stands at the start or the end of its
    sentence, AddNonterminalExtremities (rule_extractor.cc 242, 243) reads
    source_low[-1] or source_low[length] before it checks that there is room for another
    nonterminal.  (The value read does not matter: C59_sound.) *)
Theorem C59_stray_refuted : exists o p start phrase matching, fits o p start phrase matching /\ ExtractAlignments None o p start phrase matching = None.
Proof. exact stray_refuted. Qed.
Print Assumptions C59_stray_refuted.
Example C59_ex : fits opts_tight pair4 100 [12] [102] /\
  ExtractAlignments None opts_tight pair4 100 [12] [102] = Some
    [{| e_source := [12]; e_target := [21]; e_count := 1; e_align := [(0, 0)] |};
     {| e_source := [-1; 12]; e_target := [21; 22; -1]; e_count := 1; e_align := [(1, 0)] |};
     {| e_source := [-1; 12; -2]; e_target := [21; 22; -1; -2]; e_count := 1; e_align := [(1, 0)] |}].
Proof. split; [exact fits4_word|vm_compute; reflexivity]. Qed.

(** C60.  Without added nonterminals the extracts are exactly the rules over the occurrence,
    each once, with equal shares; up to two gaps. *)
Theorem C60_exact : forall o p start phrase matching, fits o p start phrase matching -> (length matching <= 3)%nat ->
  exists es insts, (forall f, ExtractAlignments (Some f) o p start phrase matching = Some es) /\ NoDup insts /\
    (forall i, In i insts <-> plain o p start phrase matching i) /\
    Forall2 (reads p) insts (filter (fun e => Nat.eqb (length (e_source e)) (length phrase)) es) /\
    Forall (fun e => e_count e = / inject_Z (Z.of_nat (length insts)))%Q (filter (fun e => Nat.eqb (length (e_source e)) (length phrase)) es).
Proof. exact extract_complete. Qed.
Print Assumptions C60_exact.
(** Finding: with three gaps a rule can be lost.  GetGapOrder (rule_extractor_helper.cc
    332-345) gives a gap its rank, ExtractPhrases (target_phrase_extractor.cc 60-87) uses it as
    the gap with that rank; for a cyclic order of three gaps the chunks then cannot be laid
    out and nothing is extracted, although the phrase pair is consistent. *)
Theorem C60_three_refuted : exists o p start phrase matching i, fits o p start phrase matching /\ plain o p start phrase matching i /\
  forall f, ExtractAlignments (Some f) o p start phrase matching = Some [].
Proof. exact three_refuted. Qed.
Print Assumptions C60_three_refuted.
Example C60_ex : fits opts_loose pair5 100 [10; -1; 12; -2; 14] [100; 102; 104] /\ (length [100; 102; 104] <= 3)%nat /\
  fits opts_loose pair4 100 [10; -1; 13] [100; 103] /\
  ExtractAlignments None opts_loose pair4 100 [10; -1; 13] [100; 103] = Some [{| e_source := [10; -1; 13]; e_target := [20; -1; 24]; e_count := 1; e_align := [(0, 0); (2, 2)] |}].
Proof. split; [exact fits5|]. split; [auto|]. split; [exact fits4_gap|]. vm_compute. reflexivity. Qed.

(** C61.  The rules of a phrase: one for every pair of phrases seen, with the numbers of the
    extracts, and the most frequent alignment. *)
Theorem C61_counts : forall stray o sentence_at phrase k ms ess, (1 <= k)%nat -> Forall (fun m => length m = k) ms ->
  Forall2 (fun m es => extracts_at stray o sentence_at phrase m = Some es) ms ess ->
  exists rules, ExtractRules stray o sentence_at phrase k (concat ms) = Some rules /\ describes ess rules.
Proof. exact extract_rules_ok. Qed.
Print Assumptions C61_counts.
(** The count of a source phrase is the number of occurrences that yield it. *)
Theorem C61_source : forall o sentence_at phrase k ms, (1 <= k)%nat -> Forall (fun m => length m = k) ms -> occurrences o sentence_at phrase ms ->
  exists ess rules, (forall f, Forall2 (fun m es => extracts_at (Some f) o sentence_at phrase m = Some es) ms ess) /\
    (forall f, ExtractRules (Some f) o sentence_at phrase k (concat ms) = Some rules) /\ describes ess rules /\
    (forall r, In r rules -> (r_source_count r == inject_Z (yield (of_source (r_source r)) ess))%Q /\ 1 <= yield (of_source (r_source r)) ess <= r_samples r /\ 1 <= r_pair_count r) /\
    (o_tight o = true -> forall r, In r rules -> r_pair_count r = yield (of_pair (r_source r) (r_target r)) ess /\ r_pair_count r <= yield (of_source (r_source r)) ess).
Proof. exact rules_counts. Qed.
Print Assumptions C61_source.
(** With tight phrases the rules share the occurrences: the counts of the targets of a source
    phrase add up to its count, which is at most the number of samples. *)
Theorem C61_shared : forall o sentence_at phrase k ms, (1 <= k)%nat -> Forall (fun m => length m = k) ms -> occurrences o sentence_at phrase ms -> o_tight o = true ->
  exists rules, (forall f, ExtractRules (Some f) o sentence_at phrase k (concat ms) = Some rules) /\
    forall r, In r rules -> 1 <= r_pair_count r <= r_samples r /\
      (r_source_count r == inject_Z (pairs_of rules (r_source r)))%Q /\ pairs_of rules (r_source r) <= r_samples r.
Proof. exact rules_shared. Qed.
Print Assumptions C61_shared.
(** The scores of such a rule. *)
Theorem C61_scores : forall r, 1 <= r_pair_count r <= r_samples r -> (0 <= TargetGivenSourceCoherent r)%R /\
  (Rpower 10 (- TargetGivenSourceCoherent r) = IZR (r_pair_count r) / IZR (r_samples r))%R.
Proof. exact coherent_nonneg. Qed.
Print Assumptions C61_scores.
Theorem C61_singleton : forall r n, (r_source_count r == inject_Z n)%Q -> (IsSourceSingleton r = 1%R <-> n = 1).
Proof. exact singleton_ok. Qed.
Print Assumptions C61_singleton.
(** Finding: without tight phrases one occurrence can yield the same pair of phrases more than
    once (equal unaligned words between two gaps, target_phrase_extractor.cc 141-155), the
    pair count then exceeds the number of samples and TargetGivenSourceCoherent is negative,
    the logarithm of a probability above one. *)
Theorem C61_loose_refuted : exists o sentence_at phrase k ms rules r, (1 <= k)%nat /\ Forall (fun m => length m = k) ms /\ occurrences o sentence_at phrase ms /\
  ExtractRules (Some (fun _ => 0)) o sentence_at phrase k (concat ms) = Some rules /\ In r rules /\ r_samples r = 1 /\ r_pair_count r = 2 /\ (TargetGivenSourceCoherent r < 0)%R.
Proof. exact twice_refuted. Qed.
Print Assumptions C61_loose_refuted.
Example C61_ex : (1 <= 1)%nat /\ Forall (fun m : list Z => length m = 1%nat) [[102]; [102]] /\ occurrences opts_tight (fun _ => Some (pair4, 100)) [12] [[102]; [102]] /\
  ExtractRules None opts_tight (fun _ => Some (pair4, 100)) [12] 1 [102; 102] = Some
    [{| r_source := [-1; 12]; r_target := [21; 22; -1]; r_source_count := 2; r_pair_count := 2; r_samples := 2; r_align := [(1, 0)] |};
     {| r_source := [-1; 12; -2]; r_target := [21; 22; -1; -2]; r_source_count := 2; r_pair_count := 2; r_samples := 2; r_align := [(1, 0)] |};
     {| r_source := [12]; r_target := [21]; r_source_count := 2; r_pair_count := 2; r_samples := 2; r_align := [(0, 0)] |}].
Proof.
  split; [auto|]. split; [repeat constructor|]. split; [|vm_compute; reflexivity].
  intros m [<-|[<-|[]]]; exists 102, pair4, 100; (split; [reflexivity|split; [reflexivity|exact fits4_word]]).
Qed.
