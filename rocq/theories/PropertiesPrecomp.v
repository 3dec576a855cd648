(** Frequent patterns and precomputed collocations (extractor/precomputation.cc).
    Sentences are lists of word ids without the end-of-line symbol 1. *)
From Coq Require Import List ZArith Lia.
From Verif Require Import Opt Suffix SuffixSpec Precomp PrecompSpec PrecompProofs PrecompIndexProofs.
Import ListNotations.
Open Scope Z_scope.

(** C36.  With a minimal frequency of at least two, the patterns found occur at least
    that often and do not cross a sentence end, none is listed twice, and a frequent
    pattern is missing only when all places are taken by patterns at least as frequent,
    or when its occurrences are the last of the suffix array (see below).  No access is
    out of bounds. *)
Theorem C36_frequent : forall rnd voc data sa ws lcp num max_len minf, (1 <= voc)%nat -> Forall (fun x => 1 <= x < Z.of_nat voc) data ->
  BuildSuffixArray rnd voc data = Some (sa, ws) -> BuildLCPArray data sa = Some lcp -> 2 <= minf ->
  exists pats, FindMostFrequentPatterns data sa lcp num max_len minf = Some pats /\ (length pats <= num)%nat /\ NoDup pats /\
    (forall w, In w pats -> w <> [] /\ (length w <= max_len)%nat /\ ~ In 1 w /\ exists n, occurs data w n /\ minf <= n) /\
    (forall w n, w <> [] -> (length w <= max_len)%nat -> ~ In 1 w -> occurs data w n -> minf <= n -> not_last data w ->
       In w pats \/ (length pats = num /\ forall v m, In v pats -> occurs data v m -> n <= m)).
Proof. exact frequent_ok. Qed.
Print Assumptions C36_frequent.
Example C36_frequent_ex : exists sa ws lcp, BuildSuffixArray (fun k => N.of_nat (7 * k + 3)) 5 [4;2;3;4;2;3;1;2;3;4;1] = Some (sa, ws) /\
  BuildLCPArray [4;2;3;4;2;3;1;2;3;4;1] sa = Some lcp /\
  FindMostFrequentPatterns [4;2;3;4;2;3;1;2;3;4;1] sa lcp 10 3 2 = Some [[3]; [2; 3]; [2]; [3; 4]; [2; 3; 4]].
Proof. eexists. eexists. eexists. split; [vm_compute; reflexivity|]. split; [vm_compute; reflexivity|]. vm_compute. reflexivity. Qed.
(** The patterns of the last run are never found: the word 4 above occurs three times,
    as often as any other, all places are not taken, and it is not listed. *)
Theorem C36_last_refuted : exists rnd voc data sa ws lcp pats, Forall (fun x => 1 <= x < Z.of_nat voc) data /\
  BuildSuffixArray rnd voc data = Some (sa, ws) /\ BuildLCPArray data sa = Some lcp /\
  FindMostFrequentPatterns data sa lcp 10 3 2 = Some pats /\ (length pats < 10)%nat /\ occurs data [4] 3 /\ ~ In [4] pats.
Proof. exact frequent_last. Qed.
Print Assumptions C36_last_refuted.
(** With a minimal frequency of one a pattern that starts at the end of the data is read. *)
Theorem C36_bounds_refuted : exists rnd voc data sa ws lcp, Forall (fun x => 1 <= x < Z.of_nat voc) data /\
  BuildSuffixArray rnd voc data = Some (sa, ws) /\ BuildLCPArray data sa = Some lcp /\
  FindMostFrequentPatterns data sa lcp 10 3 1 = None.
Proof.
  exists (fun _ => 0%N), 3%nat, [2;2;1], [3;2;1;0], [0;1;2;4], [-1;0;0;1]. split; [repeat constructor; discriminate|].
  split; [vm_compute; reflexivity|]. split; vm_compute; reflexivity.
Qed.
Print Assumptions C36_bounds_refuted.

(** C36, patterns with one gap: the index lists exactly the pairs of occurrences in one
    sentence, gap and span within the limits, each once. *)
Theorem C36_binary : forall ann o F sents w1 w2, (forall x, 0 <= ann x) -> (forall x y, ann x = ann y -> x = y) -> 0 <= gap o ->
  Forall (fun w => ~ In 1 w) F -> Forall (fun s => ~ In 1 s) sents ->
  w1 <> [] -> (length w1 <= max_phrase o)%nat -> prefixes_in F w1 -> w2 <> [] -> (length w2 <= max_phrase o)%nat -> prefixes_in F w2 ->
  exists pairs, GetCollocations (Precompute ann o F (text sents)) (map ann w1 ++ [-1] ++ map ann w2) = flat_map (fun p : Z * Z => [fst p; snd p]) pairs /\ NoDup pairs /\
  forall p1 p2, In (p1, p2) pairs <->
    at_pos (text sents) w1 p1 /\ at_pos (text sents) w2 p2 /\ same_sentence (text sents) p1 p2 /\
    gap o <= p2 - (p1 + Z.of_nat (length w1)) /\ p2 + Z.of_nat (length w2) - p1 <= span o /\ Z.of_nat (length w1 + length w2) + 1 <= symbols o.
Proof. exact index_binary. Qed.
Print Assumptions C36_binary.
(** Patterns with two gaps: the same, but only when the patterns are single words.
    Missing: longer patterns, for which the statement is false (next theorem). *)
Theorem C36_ternary_partial : forall ann o F sents w1 w2 w3, (forall x, 0 <= ann x) -> (forall x y, ann x = ann y -> x = y) -> 0 <= gap o -> NoDup F -> max_phrase o = 1%nat ->
  Forall (fun w => ~ In 1 w) F -> Forall (fun s => ~ In 1 s) sents ->
  length w1 = 1%nat -> In w1 F -> length w2 = 1%nat -> In w2 F -> length w3 = 1%nat -> In w3 F ->
  exists triples, GetCollocations (Precompute ann o F (text sents)) (map ann w1 ++ [-1] ++ map ann w2 ++ [-2] ++ map ann w3) = flat_map (fun p : Z * Z * Z => [fst (fst p); snd (fst p); snd p]) triples /\ NoDup triples /\
  forall p1 p2 p3, In (p1, p2, p3) triples <->
    at_pos (text sents) w1 p1 /\ at_pos (text sents) w2 p2 /\ at_pos (text sents) w3 p3 /\ same_sentence (text sents) p1 p3 /\
    gap o <= p2 - (p1 + 1) /\ gap o <= p3 - (p2 + 1) /\ p3 + 1 - p1 <= span o /\ 5 <= symbols o /\
    among_first F (num_super o) w2 /\ (among_first F (num_super o) w1 \/ among_first F (num_super o) w3).
Proof. exact index_ternary. Qed.
Print Assumptions C36_ternary_partial.
(** The index has an entry for 2 _ 3 _ 3 3 though 3 3 does not occur in the text. *)
Theorem C36_ternary_refuted : exists o F sents, 0 <= gap o /\ NoDup F /\ Forall (fun w => ~ In 1 w) F /\ Forall (fun s => ~ In 1 s) sents /\
  GetCollocations (Precompute (fun x => Z.abs x) o F (text sents)) ([2] ++ [-1] ++ [3] ++ [-2] ++ [3; 3]) = [0; 2; 5] /\
  forall p, ~ at_pos (text sents) [3; 3] p.
Proof. exact index_ternary_bad. Qed.
Print Assumptions C36_ternary_refuted.
Example C36_ex :
  let o := {| span := 10; gap := 1; symbols := 5; max_phrase := 2; num_super := 5 |} in
  let F := [[2]; [3]; [2; 3]; [4]] in
  let idx := Precompute (fun x => x + 100) o F (text [[2;5;3;6;2;3;6;4]; [2;4]; [3;7;2;3]]) in
  prefixes_in F [2; 3] /\
  GetCollocations idx ([103] ++ [-1] ++ [102; 103]) = [2; 4; 12; 14] /\
  GetCollocations idx ([102] ++ [-1] ++ [104]) = [0; 7; 4; 7].
Proof.
  cbv zeta. split; [|split; vm_compute; reflexivity].
  intros [|a [|b [|c v]]] H (q & Q); [congruence| | |discriminate]; injection Q; intros; subst; cbn; auto.
Qed.
