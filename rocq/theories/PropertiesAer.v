(** C79: the alignment error rate. *)
From Coq Require Import List Arith ZArith QArith Lia.
From Verif Require Import Align AlignProofs Aer AerSpec AerProofs.
Import ListNotations.
Local Open Scope nat_scope.

(** C79. For every two alignments, in any writing the reader accepts, the statistics
    are the number of common links and the numbers of links. *)
Theorem C79_sentence : forall W IM a b ta tb, written W IM a ta -> written W IM b tb ->
  score_candidate W IM [tb] ta = Some (common a b, links a, links b).
Proof. exact sentence_ok. Qed.
Print Assumptions C79_sentence.

(** C79. For every corpus the score is the error rate over all its links, between 0
    and 1, and 0 exactly if every hypothesis has the links of its reference and
    there is some link. *)
Theorem C79_corpus : forall W IM (l : list ((list (nat * nat) * list nat) * (list (nat * nat) * list nat))),
  Forall (fun x => written W IM (fst (fst x)) (snd (fst x)) /\ written W IM (fst (snd x)) (snd (snd x))) l ->
  let m := list_sum (map (fun x => common (fst (fst x)) (fst (snd x))) l) in
  let p := list_sum (map (fun x => links (fst (fst x))) l) in
  let r := list_sum (map (fun x => links (fst (snd x))) l) in
  exists ss, map Some ss = map (fun x => score_candidate W IM [snd (snd x)] (snd (fst x))) l /\
    exists q, compute_score (fold_left plus_equals ss zero) = Some q /\ (q == error_rate m p r)%Q /\ (0 <= q <= 1)%Q /\
    ((q == 0)%Q <-> Forall (fun x => forall i j, In (i, j) (fst (fst x)) <-> In (i, j) (fst (snd x))) l /\ Exists (fun x => fst (snd x) <> []) l).
Proof. exact corpus_ok. Qed.
Print Assumptions C79_corpus.

(** "0-0 1-2" and "1-2  0-0 1-1 0-0 ". *)
Definition text1 : list nat := [48;45;48] ++ [32] ++ [49;45;50].
Definition text2 : list nat := [49;45;50] ++ [32;32] ++ [48;45;48] ++ [32] ++ [49;45;49] ++ [32] ++ [48;45;48;32].
Example C79_case : written 1000 500 [(0, 0); (1, 2)] text1 /\ written 1000 500 [(1, 2); (0, 0); (1, 1); (0, 0)] text2.
Proof.
  assert (N : forall d, d < 10 -> numeral [48 + d] d). { intros d H. split; [discriminate|]. split; [constructor; [lia|constructor]|]. cbn. lia. }
  assert (N0 := N 0 ltac:(lia)). assert (N1 := N 1 ltac:(lia)). assert (N2 := N 2 ltac:(lia)). cbn in N0, N1, N2.
  split; (split; [|repeat split; apply Nat.ltb_lt; reflexivity]).
  - apply (pt_cons 0 0 [48] [48] 0 [(1, 2)] [49;45;50] N0 N0); [discriminate|]. apply (pt_last 1 2 [49] [50] 0 N1 N2).
  - apply (pt_cons 1 2 [49] [50] 1 _ _ N1 N2); [discriminate|].
    apply (pt_cons 0 0 [48] [48] 0 _ _ N0 N0); [discriminate|].
    apply (pt_cons 1 1 [49] [49] 0 _ _ N1 N1); [discriminate|]. apply (pt_last 0 0 [48] [48] 1 N0 N0).
Qed.
Example C79_value : score_candidate 1000 500 [text2] text1 = Some (2, 2, 3) /\
  option_map Qred (compute_score (2, 2, 3)) = Some (1 # 5)%Q /\ compute_score zero = Some 1%Q.
Proof. vm_compute. auto. Qed.
