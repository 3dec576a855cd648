(** C73: sampling derivations from a forest. *)
From Coq Require Import List Arith QArith Qcanon Permutation Lia.
From Verif Require Import Opt HG Deriv TopoSpec Inside Viterbi ViterbiProofs HgSample HgSampleSpec HgSampleProofs HgSampleRefProofs.
Import ListNotations.
Open Scope Qc_scope.

(** Every derivation of the goal is sampled with a probability of its weight over the weight of all of them, independently of the other samples:
    there is a box of intervals for each derivation whose volume is that probability, whatever the random numbers are they are in the box of exactly one derivation, and
    the samples are the derivations in the boxes of which the random numbers are, reported with the features, the weight and the words of the derivation. *)
Theorem C73_sample : forall (P X T : Type) (weight : edge P -> Qc) (feats : edge P -> X) (dflt : T) traverse (g : hg P),
  topo g -> wf_hg g -> (forall n nd, nth_error (nodes g) n = Some nd -> in_edges nd <> []) -> nodes g <> [] ->
  (forall e ed, nth_error (edges g) e = Some ed -> 0 < weight ed) ->
  exists (total : Qc) (tb : tree -> list (Qc * Qc)) (N : nat),
    0 < total /\
    (forall L, all_derivations g (length (nodes g) - 1) L -> total = sum 0 Qcplus (map (tree_weight Qcmult (edge_weight 0 weight g)) L)) /\
    (forall t, derives g (length (nodes g) - 1) t -> is_box (tb t) /\ volume (tb t) = tree_weight Qcmult (edge_weight 0 weight g) t / total) /\
    (forall us, (N <= length us)%nat -> Forall (fun u => 0 <= u <= 1) us -> exists! t, derives g (length (nodes g) - 1) t /\ drawn us (tb t)) /\
    (forall fuel ts us1 us2, Forall (derives g (length (nodes g) - 1)) ts -> Forall (fun t => (length (tree_edges t) <= fuel)%nat) ts -> Forall2 hit us1 (flat_map tb ts) ->
      exists hs, sample_hypotheses weight feats dflt traverse g fuel (length ts) (us1 ++ us2) = Some (hs, us2) /\ Forall2 (reports weight feats dflt traverse g) hs ts).
Proof. exact @sample_correct. Qed.
Print Assumptions C73_sample.

Example C73_ex :
  (topo two_ways /\ wf_hg two_ways /\ (forall n nd, nth_error (nodes two_ways) n = Some nd -> in_edges nd <> []) /\ nodes two_ways <> [] /\
   (forall e ed, nth_error (edges two_ways) e = Some ed -> 0 < snd (lab ed))) /\
  sample_hypotheses (fun ed => snd (lab ed)) (fun ed => fst (lab ed)) [] said two_ways 9 3 [Q2Qc (1 # 8); Q2Qc (1 # 2); Q2Qc (9 # 10); Q2Qc (1 # 5); Q2Qc (1 # 5); 1] =
    Some ([{| h_feats := [13; 11; 12]; h_score := Q2Qc (3 # 2); h_words := [13; 11; 12] |}; {| h_feats := [14]; h_score := Q2Qc 6; h_words := [14] |};
           {| h_feats := [13; 10; 12]; h_score := Q2Qc (1 # 2); h_words := [13; 10; 12] |}]%nat, [1]).
Proof. split; [exact (forest_ok two_ways (or_introl eq_refl))|vm_compute; reflexivity]. Qed.

(** Finding: HypergraphSampler::sample_hypotheses marks the edges it has sampled and takes the words of a best derivation made of marked edges. When a node occurs twice in a derivation and has been
    expanded in two different ways, the words reported are not those of the derivation sampled: no derivation has both the features and the words of the sample. *)
Theorem C73_words_refuted : exists (g : hg (nat * Qc)) us h,
  topo g /\ wf_hg g /\ (forall n nd, nth_error (nodes g) n = Some nd -> in_edges nd <> []) /\ nodes g <> [] /\ (forall e ed, nth_error (edges g) e = Some ed -> 0 < snd (lab ed)) /\
  Forall (fun u => 0 <= u <= 1) us /\
  sample_hypotheses (fun ed => snd (lab ed)) (fun ed => fst (lab ed)) [] said g 9 1 us = Some ([h], []) /\
  forall t eds, derives g (length (nodes g) - 1) t -> map Some eds = map (nth_error (edges g)) (tree_edges t) ->
    Permutation (h_feats h) (map (fun ed => fst (lab ed)) eds) -> h_words h <> tree_eval g [] said t.
Proof. exact words_refuted. Qed.
Print Assumptions C73_words_refuted.
