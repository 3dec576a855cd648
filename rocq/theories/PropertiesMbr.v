(** C92: minimum Bayes risk reranking of k-best lists. *)
From Coq Require Import Reals List Arith Permutation.
From Verif Require Import CutmiraSpec Mbr MbrSpec MbrProofs.
Import ListNotations.

(** C92. The lists read from any number of files, for the same sentences in the same order, are
    those of the sentences: the k-th has exactly the candidates of the k-th sentence of all
    files, and after the last sentence there is an empty one, which ends the program. The
    sentence id is right for the first sentence and for those where a file has two candidates. *)
Theorem C92_read : forall (T : Type) (s0 : T) ids fs n k sid l, distinct_ids ids -> fs <> [] -> Forall (fun gs => map fst gs = ids /\ wf gs) fs ->
  nth_error (calls T s0 n (start T s0 (map file_of fs))) k = Some (sid, l) ->
  (k < length ids -> Permutation l (group fs k) /\ (k = 0 \/ two fs k -> sid = nth k ids 0)) /\ (length ids <= k -> l = []).
Proof. exact groups. Qed.
Print Assumptions C92_read.

(** Finding: the id is only set when a line of the sentence is read, not when its candidate comes
    from the cache (mbr_kbest.cc:64-70, 89): with one candidate for the second sentence the
    list is printed under the id of the first. *)
Theorem C92_id_refuted : forall (T : Type) (s0 : T) i j ids fs, distinct_ids (i :: j :: ids) -> fs <> [] -> Forall (fun gs => map fst gs = i :: j :: ids /\ wf gs) fs ->
  (forall gs g, In gs fs -> nth_error gs 1 = Some g -> length (snd g) = 1) ->
  exists l, nth_error (calls T s0 2 (start T s0 (map file_of fs))) 1 = Some (i, l) /\ l <> [].
Proof. exact id_refuted. Qed.
Print Assumptions C92_id_refuted.

(** Finding: an empty translation in the cache is taken for an empty cache
    (mbr_kbest.cc:64): the candidate is lost. *)
Theorem C92_empty_refuted : forall (T : Type) (s0 s1 s2 s3 : T) x y,
  nth_error (calls T s0 2 (start T s0 [[(1, ([x], s1)); (2, ([], s2)); (2, ([y], s3))]])) 1 = Some (2, [([y], s3)]).
Proof. exact empty_refuted. Qed.
Print Assumptions C92_empty_refuted.

(** Finding: if a file ends before the others, the empty place in the cache becomes an empty
    candidate (mbr_kbest.cc:65-66). *)
Theorem C92_ended_refuted : forall (T : Type) (s0 s1 s2 s3 : T) x y z,
  nth_error (calls T s0 2 (start T s0 [[(1, ([x], s1)); (2, ([y], s2))]; [(1, ([z], s3))]])) 1 = Some (1, [([y], s2); ([], s0)]).
Proof. exact ended_refuted. Qed.
Print Assumptions C92_ended_refuted.

Local Open Scope R_scope.
(** C92. The candidate chosen is the first of those with the least expected loss of the other
    candidates against it, under the probabilities which the scores give after
    normalisation, though sums are given up early; with the whole list asked for, the
    scores are the expected losses. *)
Theorem C92_best : forall score is_loss, (forall a b, 0 <= loss score is_loss a b) -> forall l out, l <> [] ->
  let n := length l in let rk := risk (fun a b => loss score is_loss (fst (nth a l dc)) (fst (nth b l dc))) (fun k => snd (nth k l dc)) n in
  exists i, snd (choose score is_loss out l) = Some i /\ (i < n)%nat /\ (forall k, (k < n)%nat -> rk i <= rk k) /\ (forall k, (k < i)%nat -> rk i < rk k) /\
    (out = true -> fst (fst (choose score is_loss out l)) = map rk (seq 0 n)).
Proof. exact choose_best. Qed.
Print Assumptions C92_best.

(** Finding: the candidate in question is the reference and the others are evaluated against it
    (mbr_kbest.cc:154, 162), so for a metric which is not symmetric the candidate chosen
    need not have the least expected loss as a translation: with "a b" and "a" equally
    likely and the error rate, "a b" is chosen, the expected rate of "a" is lower. *)
Theorem C92_roles_refuted : exists i k, snd (choose ex_rate (taken_for_loss TER) false ex_cands) = Some i /\ (k < 2)%nat /\
  let as_hyp a b := ex_rate (fst (nth b ex_cands dc)) (fst (nth a ex_cands dc)) in
  risk as_hyp (fun k => snd (nth k ex_cands dc)) 2 k < risk as_hyp (fun k => snd (nth k ex_cands dc)) 2 i.
Proof. exact roles_refuted. Qed.
Print Assumptions C92_roles_refuted.

(** Finding: only TER is taken for an error (mbr_kbest.cc:111); with WER or CER the program
    prefers candidates with more errors. *)
Theorem C92_wer_refuted : IsErrorMetric WER = true /\ exists i k, snd (choose ex_rate (taken_for_loss WER) false ex_cands) = Some i /\ (k < 2)%nat /\
  let err a b := ex_rate (fst (nth a ex_cands dc)) (fst (nth b ex_cands dc)) in
  risk err (fun k => snd (nth k ex_cands dc)) 2 k < risk err (fun k => snd (nth k ex_cands dc)) 2 i.
Proof. exact wer_refuted. Qed.
Print Assumptions C92_wer_refuted.

Example C92_ex : (forall a b, 0 <= loss ex_rate true a b) /\ snd (choose ex_rate true false ex_cands) = Some 0%nat.
Proof. exact ex_choice. Qed.
Print Assumptions C92_ex.

(** Two files, two sentences. *)
Example C92_ex_read : calls nat 0%nat 3 (start nat 0%nat (map file_of [[(1, [([5], 50)]); (2, [([6], 60); ([7], 70)])]; [(1, [([8], 80); ([9], 90)]); (2, [([4], 40)])]]%nat)) =
  [(1, [([5], 50); ([8], 80); ([9], 90)]); (2, [([6], 60); ([4], 40); ([7], 70)]); (2, [])]%nat.
Proof. reflexivity. Qed.
Print Assumptions C92_ex_read.
