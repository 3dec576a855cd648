(** Suffix array construction, lookup and LCP array (extractor/suffix_array.cc,
    matchings_finder.cc).  [rnd] is an arbitrary sequence of results of rand(). *)
From Coq Require Import List ZArith Permutation Sorted.
From Verif Require Import Opt Suffix SuffixSpec SuffixLookupProofs.
Import ListNotations.
Open Scope Z_scope.

(** C31.  No access out of bounds, and the array lists all suffixes in increasing
    order, provided the NULL word (id 0) does not occur in the text. *)
Theorem C31_sorted : forall rnd voc data, (1 <= voc)%nat -> Forall (fun x => 1 <= x < Z.of_nat voc) data ->
  exists sa ws, BuildSuffixArray rnd voc data = Some (sa, ws) /\
    Permutation sa (positions data) /\ StronglySorted (fun p q => lex (suffix data p) (suffix data q)) sa.
Proof. exact suffix_build. Qed.
Print Assumptions C31_sorted.
Example C31_ex : exists sa ws, BuildSuffixArray (fun k => N.of_nat (7 * k + 3)) 5 [4;2;3;4;2;3;1;2;3;4;1] = Some (sa, ws) /\
  sa = [11;10;6;4;7;1;5;8;2;9;3;0].
Proof. eexists. eexists. split; [vm_compute; reflexivity|reflexivity]. Qed.
Example C31_ex_hyp : Forall (fun x => 1 <= x < Z.of_nat 5) [4;2;3;4;2;3;1;2;3;4;1].
Proof. repeat constructor; discriminate. Qed.

(** C31, refuted in full: a text with the token __NULL__ (id 0) makes the sort read
    beyond its arrays. *)
Theorem C31_null_refuted : exists rnd voc data, Forall (fun x => 0 <= x < Z.of_nat voc) data /\ BuildSuffixArray rnd voc data = None.
Proof. exists (fun _ => 0%N), 3%nat, [2;0;1]. split; [repeat constructor; discriminate|vm_compute; reflexivity]. Qed.
Print Assumptions C31_null_refuted.

(** C32.  From the exact range of a phrase to the exact range of the phrase extended by
    a word; -1 is the id of a word that is not in the vocabulary. *)
Theorem C32_lookup : forall rnd voc data sa ws w word low high, (1 <= voc)%nat -> Forall (fun x => 1 <= x < Z.of_nat voc) data ->
  BuildSuffixArray rnd voc data = Some (sa, ws) -> 1 <= word < Z.of_nat voc \/ word = -1 -> range_of data sa w low high ->
  exists a b, Lookup data sa ws low high word (Z.of_nat (length w)) = Some (a, b) /\ range_of data sa (w ++ [word]) a b.
Proof. exact suffix_lookup. Qed.
Print Assumptions C32_lookup.
(** Looking a phrase up word by word finds exactly its occurrences. *)
Theorem C32_phrase : forall rnd voc data sa ws w, (1 <= voc)%nat -> Forall (fun x => 1 <= x < Z.of_nat voc) data ->
  BuildSuffixArray rnd voc data = Some (sa, ws) -> w <> [] -> Forall (fun x => 1 <= x < Z.of_nat voc \/ x = -1) w ->
  exists a b, find_phrase data sa ws w = Some (a, b) /\ 0 <= a <= b /\ b <= Z.of_nat (length sa) /\
    forall p, 0 <= p <= Z.of_nat (length data) -> (starts w (suffix data p) <-> exists i, a <= Z.of_nat i < b /\ nth_error sa i = Some p).
Proof. exact suffix_phrase. Qed.
Print Assumptions C32_phrase.
Example C32_ex : exists sa ws, BuildSuffixArray (fun k => N.of_nat (7 * k + 3)) 5 [4;2;3;4;2;3;1;2;3;4;1] = Some (sa, ws) /\
  find_phrase [4;2;3;4;2;3;1;2;3;4;1] sa ws [2;3;4] = Some (4, 6) /\ find_phrase [4;2;3;4;2;3;1;2;3;4;1] sa ws [3;3] = Some (7, 7).
Proof. eexists. eexists. split; [vm_compute; reflexivity|split; vm_compute; reflexivity]. Qed.

(** C32, refuted in full: looking up the token __NULL__ reports one occurrence, in any
    text, though it does not occur there. *)
Theorem C32_null_refuted : exists rnd voc data sa ws a b, Forall (fun x => 1 <= x < Z.of_nat voc) data /\
  BuildSuffixArray rnd voc data = Some (sa, ws) /\ Lookup data sa ws 0 (Z.of_nat (length sa)) 0 0 = Some (a, b) /\
  ~ range_of data sa [0] a b.
Proof.
  exists (fun _ => 0%N), 3%nat, [2;1], [2;1;0], [0;1;2;3], 0, 1. split; [repeat constructor; discriminate|]. split; [vm_compute; reflexivity|].
  split; [vm_compute; reflexivity|]. intros (_ & _ & H). destruct (H 0%nat 2 eq_refl) as [A _].
  destruct A as (r & E); [split; [apply Z.le_refl|reflexivity]|]. discriminate E.
Qed.
Print Assumptions C32_null_refuted.

(** C33 *)
Theorem C33_lcp : forall rnd voc data sa ws, (1 <= voc)%nat -> Forall (fun x => 1 <= x < Z.of_nat voc) data ->
  BuildSuffixArray rnd voc data = Some (sa, ws) ->
  exists lcp, BuildLCPArray data sa = Some lcp /\ length lcp = length sa /\ nth_error lcp 0 = Some (-1) /\
    forall r p q, nth_error sa r = Some p -> nth_error sa (S r) = Some q ->
      nth_error lcp (S r) = Some (common (suffix data p) (suffix data q)).
Proof. exact suffix_lcp. Qed.
Print Assumptions C33_lcp.
Example C33_ex : exists lcp, BuildLCPArray [4;2;3;4;2;3;1;2;3;4;1] [11;10;6;4;7;1;5;8;2;9;3;0] = Some lcp /\
  lcp = [-1;0;1;0;2;3;0;1;2;0;1;3].
Proof. eexists. split; [vm_compute; reflexivity|reflexivity]. Qed.
