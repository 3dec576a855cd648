(** Finding and sampling the occurrences of the phrases of an input sentence. *)
From Coq Require Import List ZArith NArith Bool Sorted.
From Verif Require Import Opt Suffix SuffixSpec PrecompSpec Intersect IntersectSpec IntersectMainProofs Sampler SamplerSpec SamplerMainProofs
  RuleFactory RuleFactorySpec RuleFactoryProofs RuleFactoryTrieProofs.
Import ListNotations.
Open Scope Z_scope.

Definition corpus := [[2; 3; 4; 2]; [3; 2; 5; 4]].
Definition corpus_sa := [10; 9; 4; 3; 0; 6; 5; 1; 8; 2; 7].
Definition corpus_ws := [0; 1; 3; 6; 8; 10; 11].
(** The ids of words 0, 1, ... in the corpus; words from 4 on are not in it. *)
Definition ids (w : Z) : Z := if w <? 4 then w + 2 else -1.

(** C66.  A sample of the occurrences of a phrase: distinct occurrences in order, at most
    max_samples, none from a blacklisted sentence; every allowed one if there are no more
    than max_samples occurrences; empty only if no occurrence is allowed.  The values that
    the code reads outside its array (see below) do not matter. *)
Theorem C66_sample : forall stray rnd voc lines sa ws blacklisted M l occs, (1 <= voc)%nat -> Forall (fun x => 1 <= x < Z.of_nat voc) (text lines) ->
  BuildSuffixArray rnd voc (text lines) = Some (sa, ws) -> 0 < M -> denotes sa l occs -> Forall (fun o => 0 <= hd 0 o < size (text lines)) occs ->
  exists r idx, Sample (Some stray) (CreateDataArray lines) sa blacklisted M l = Some r /\ sample_result lines sa blacklisted M occs r idx /\
    (Z.of_nat (length occs) <= M -> forall n, (n < length occs)%nat -> allowed lines blacklisted (nth n occs []) -> In n idx) /\
    (idx = [] -> forall o, In o occs -> ~ allowed lines blacklisted o).
Proof. intros. eapply sample_ok; eauto. discriminate. Qed.
Print Assumptions C66_sample.
(** With nothing blacklisted it has min(occurrences, max_samples) elements, and no read is
    out of bounds. *)
Theorem C66_free : forall lines sa blacklisted M l occs, 0 < M -> denotes sa l occs -> Forall (fun o => 0 <= hd 0 o < size (text lines)) occs ->
  Forall (allowed lines blacklisted) occs ->
  exists r idx, Sample None (CreateDataArray lines) sa blacklisted M l = Some r /\ sample_result lines sa blacklisted M occs r idx /\
    Z.of_nat (length idx) = Z.min (Z.of_nat (length occs)) M.
Proof. intros lines sa. exact (sample_free None lines sa). Qed.
Print Assumptions C66_free.
(** No read is out of bounds either for matchings with gaps, or when the range of the phrase
    in the suffix array starts late enough. *)
Theorem C66_inside : forall rnd voc lines sa ws blacklisted M l occs, (1 <= voc)%nat -> Forall (fun x => 1 <= x < Z.of_nat voc) (text lines) ->
  BuildSuffixArray rnd voc (text lines) = Some (sa, ws) -> 0 < M -> denotes sa l occs -> Forall (fun o => 0 <= hd 0 o < size (text lines)) occs ->
  (matchings l = None -> sa_high l - sa_low l <= M * Z.max 1 (sa_low l - 1)) ->
  exists r idx, Sample None (CreateDataArray lines) sa blacklisted M l = Some r /\ sample_result lines sa blacklisted M occs r idx.
Proof.
  intros rnd voc lines sa ws blacklisted M l occs HV HD HB HM Hd Ho Hc.
  destruct (sample_ok None rnd voc lines sa ws blacklisted M l occs HV HD HB HM Hd Ho (fun _ => Hc)) as (r & idx & A & B & _). eauto.
Qed.
Print Assumptions C66_inside.
(** Finding: backing off to the left does not stop at the start of the range
    (backoff_sampler.cc 33-40): with the sentence of all occurrences blacklisted it goes on
    to rank 0 of the suffix array, the empty suffix, and reads the sentence number one past
    the end of the array. *)
Theorem C66_stray_refuted : exists rnd voc lines sa ws blacklisted M l occs, (1 <= voc)%nat /\ Forall (fun x => 1 <= x < Z.of_nat voc) (text lines) /\
  BuildSuffixArray rnd voc (text lines) = Some (sa, ws) /\ 0 < M /\ find_phrase (text lines) sa ws [2] = Some (sa_low l, sa_high l) /\ denotes sa l occs /\
  Forall (fun o => 0 <= hd 0 o < size (text lines)) occs /\ Sample None (CreateDataArray lines) sa blacklisted M l = None.
Proof. exact sample_bad. Qed.
Print Assumptions C66_stray_refuted.
(** Three occurrences of word 2; sentence 0 is blacklisted. *)
Example C66_ex : BuildSuffixArray (fun _ => 0%N) 6 (text corpus) = Some (corpus_sa, corpus_ws) /\
  find_phrase (text corpus) corpus_sa corpus_ws [2] = Some (3, 6) /\ denotes corpus_sa (range_loc 3 6) [[3]; [0]; [6]] /\
  Forall (fun o => 0 <= hd 0 o < size (text corpus)) [[3]; [0]; [6]] /\
  Sample None (CreateDataArray corpus) corpus_sa (fun k => k =? 0) 2 (range_loc 3 6) = Some (match_loc [6] 1) /\
  Sample None (CreateDataArray corpus) corpus_sa (fun _ => false) 2 (range_loc 3 6) = Some (match_loc [3; 6] 1).
Proof.
  split; [vm_compute; reflexivity|]. split; [vm_compute; reflexivity|]. split; [repeat split; vm_compute; discriminate|].
  split; [repeat constructor; vm_compute; discriminate|]. split; vm_compute; reflexivity.
Qed.

(** C67.  The occurrences of a phrase with gaps are computed from all occurrences of the
    phrase without its last symbols, and of the phrase without its first ones: every
    occurrence within a sentence and the span limit is found once and nothing else.
    The two locations that are given may change, but stand for the same occurrences. *)
Theorem C67_intersect : forall lines wid span gap, Forall (fun l => Forall (fun x => 2 <= x) l) lines -> 0 <= gap ->
  forall sa pre phrase prefix suffix po so,
  spaced phrase -> 0 <= hd 0 phrase -> 0 <= last phrase 0 -> ~ contiguous phrase ->
  denotes sa prefix po -> all_occurrences lines wid span gap (trim_back (removelast phrase)) po ->
  denotes sa suffix so -> all_occurrences lines wid span gap (trim_front (tl phrase)) so ->
  (forall ms, pre phrase = Some ms -> exists occs, ms = concat occs /\ all_occurrences lines wid span gap phrase occs) ->
  exists r prefix' suffix' occs, Intersect (CreateDataArray lines) sa wid pre span gap prefix suffix phrase = Some (r, prefix', suffix') /\
    denotes sa r occs /\ all_occurrences lines wid span gap phrase occs /\ denotes sa prefix' po /\ denotes sa suffix' so.
Proof. exact intersect_ok. Qed.
Print Assumptions C67_intersect.
(** Word 0, a gap, word 2 in the corpus: at 6 and 8, and at 0 and 2. *)
Example C67_ex : denotes corpus_sa (range_loc 3 6) [[3]; [0]; [6]] /\ denotes corpus_sa (range_loc 8 10) [[8]; [2]] /\
  Intersect (CreateDataArray corpus) corpus_sa ids (fun _ => None) 10 1 (range_loc 3 6) (range_loc 8 10) [0; -1; 2] =
    Some (match_loc [6; 8; 0; 2] 2, range_loc 3 6, match_loc [8; 2] 1).
Proof. split; [repeat split; vm_compute; discriminate|]. split; [repeat split; vm_compute; discriminate|]. vm_compute. reflexivity. Qed.
Example C67_occ : occurrence corpus ids 10 1 [0; -1; 2] [6; 8] /\ occurrence corpus ids 10 1 [0; -1; 2] [0; 2] /\
  spaced [0; -1; 2] /\ ~ contiguous [0; -1; 2].
Proof.
  assert (S0 : forall p e, (forall k, p <= k < e -> nth_error (text corpus) (Z.to_nat k) <> Some 1) -> same_sentence (text corpus) p e) by (intros p e H; exact H).
  split; [|split; [|split]].
  - exists 6, [8], 9. split; [reflexivity|]. split.
    + apply reads_word; [discriminate|discriminate|reflexivity|]. apply reads_gap; [reflexivity|discriminate|]. apply reads_word; [discriminate|discriminate|reflexivity|]. apply (reads_nil _ _ _ 9).
    + split; [|right; discriminate]. apply S0. intros k Hk. assert (E : k = 6 \/ k = 7 \/ k = 8) by Lia.lia. destruct E as [->|[->| ->]]; discriminate.
  - exists 0, [2], 3. split; [reflexivity|]. split.
    + apply reads_word; [discriminate|discriminate|reflexivity|]. apply reads_gap; [reflexivity|discriminate|]. apply reads_word; [discriminate|discriminate|reflexivity|]. apply (reads_nil _ _ _ 3).
    + split; [|right; discriminate]. apply S0. intros k Hk. assert (E : k = 0 \/ k = 1 \/ k = 2) by Lia.lia. destruct E as [->|[->| ->]]; discriminate.
  - intros l1 a b l2 E. destruct l1 as [|x [|y [|z [|u l1]]]]; cbn in E; try discriminate; injection E; intros; subst; Lia.lia.
  - intros C. specialize (C (-1) (or_intror (or_introl eq_refl))). Lia.lia.
Qed.

(** C68.  The phrases of an input sentence: the search ends; the phrases looked up are
    exactly those that can be read off the sentence within the limits and that occur in
    the corpus, each once; and the location passed on with a phrase stands for all its
    occurrences.  [pre]: the precomputed index, which may lack any phrase. *)
Theorem C68_grammar : forall rnd voc lines sa ws wid pre span gap nonterms symbols words,
  Forall (fun l => Forall (fun x => 2 <= x < Z.of_nat voc) l) lines -> (2 <= voc)%nat ->
  BuildSuffixArray rnd voc (text lines) = Some (sa, ws) ->
  Forall (fun w => 0 <= w /\ (wid w = -1 \/ 2 <= wid w < Z.of_nat voc)) words ->
  0 <= gap -> (forall phrase ms, ~ contiguous phrase -> pre phrase = Some ms -> exists occs, ms = concat occs /\ all_occurrences lines wid span gap phrase occs) ->
  0 <= span -> 1 <= symbols -> 0 <= nonterms ->
  exists n calls, (forall fuel, (n <= fuel)%nat -> GetGrammar (CreateDataArray lines) sa ws wid pre span gap nonterms symbols words fuel = Some calls) /\
    NoDup (map fst calls) /\
    (forall phrase, In phrase (map fst calls) <-> input_phrase words span gap nonterms symbols phrase /\ exists ps, occurrence lines wid span gap phrase ps) /\
    (forall phrase l, In (phrase, l) calls -> exists occs, denotes sa l occs /\ all_occurrences lines wid span gap phrase occs).
Proof. exact grammar_ok. Qed.
Print Assumptions C68_grammar.
(** Word 7 of the sentence is not in the corpus. *)
Example C68_ex : Forall (fun l => Forall (fun x => 2 <= x < 6) l) corpus /\ BuildSuffixArray (fun _ => 0%N) 6 (text corpus) = Some (corpus_sa, corpus_ws) /\
  Forall (fun w => 0 <= w /\ (ids w = -1 \/ 2 <= ids w < 6)) [0; 1; 2; 7; 0] /\
  GetGrammar (CreateDataArray corpus) corpus_sa corpus_ws ids (fun _ => None) 10 1 2 5 [0; 1; 2; 7; 0] 300 = Some
    [([0], range_loc 3 6); ([1], range_loc 6 8); ([2], range_loc 8 10); ([0; 1], range_loc 4 5); ([0; -1; 2], match_loc [6; 8; 0; 2] 2);
     ([0; -1; 0], match_loc [0; 3] 2); ([1; 2], range_loc 7 8); ([1; -1; 0], match_loc [1; 3] 2); ([0; 1; 2], range_loc 4 5); ([0; 1; -1; 0], match_loc [0; 3] 2)].
Proof.
  split; [repeat constructor; vm_compute; discriminate|]. split; [vm_compute; reflexivity|]. split; [|vm_compute; reflexivity].
  repeat (constructor; [split; [vm_compute; discriminate|first [right; split; [vm_compute; discriminate|reflexivity]|left; reflexivity]]|]). constructor.
Qed.
