(** C46: Levenshtein distance, word and character error statistics. *)
From Coq Require Import List Arith ZArith Lia.
From Verif Require Import Leven LevenSpec LevenProofs.
Import ListNotations.
Open Scope nat_scope.

(** LevenshteinDistance never leaves its array and returns the least number of
    single-symbol edits. *)
Theorem C46_distance : forall a b, exists d, LevenshteinDistance a b = Some d /\ is_distance a b d.
Proof. exact lev_distance. Qed.
Print Assumptions C46_distance.

Example C46_distance_ex : LevenshteinDistance [1; 2; 3; 4]%Z [2; 3; 5; 4; 6]%Z = Some 3.
Proof. reflexivity. Qed.

(** WER statistics: the distance to the first nearest reference and its length. *)
Theorem C46_wer : forall hyp refs, refs <> [] ->
  exists d len, wer_stats hyp refs = Some (d, len) /\ nearest hyp refs d len.
Proof. exact wer_nearest. Qed.
Print Assumptions C46_wer.

Example C46_wer_ex : wer_stats [1; 2; 3]%Z [[4; 5]; [1; 2]; [1; 3; 3]]%Z = Some (1, 2).
Proof. reflexivity. Qed.

(** CER statistics are the same provided some reference is at a distance smaller than
    the length of the hypothesis. *)
Theorem C46_cer : forall hyp refs, refs <> [] ->
  (exists r d, In r refs /\ is_distance hyp r d /\ d < length hyp) ->
  exists d len, cer_stats hyp refs = Some (d, len) /\ nearest hyp refs d len.
Proof. exact cer_nearest. Qed.
Print Assumptions C46_cer.

Example C46_cer_ex : exists r d, In r [[104; 105]]%Z /\ is_distance [104; 111]%Z r d /\ d < length [104; 111]%Z.
Proof.
  exists [104; 105]%Z, 1. split; [left; reflexivity|]. split; [|simpl; lia].
  destruct (lev_distance [104; 111]%Z [104; 105]%Z) as (d & E & D). cbv in E. injection E as <-. exact D.
Qed.

(** Without the proviso they are lost: no errors, no reference length. *)
Theorem C46_cer_lost : forall hyp refs,
  (forall r d, In r refs -> is_distance hyp r d -> length hyp <= d) -> cer_stats hyp refs = Some (0, 0).
Proof. exact cer_lost. Qed.
Print Assumptions C46_cer_lost.

(** So the statement for all inputs is false: an empty hypothesis for a reference of
    three characters, or "ab" against "xyz", counts as having no error. *)
Theorem C46_cer_refuted : exists hyp refs, refs <> [] /\
  cer_stats hyp refs = Some (0, 0) /\ forall len, ~ nearest hyp refs 0 len.
Proof.
  exists [97; 98]%Z, [[120; 121; 122]]%Z. split; [discriminate|]. split; [reflexivity|].
  intros len H. pose proof H as (bf & r & af & E & _ & D & _).
  assert (r = [120; 121; 122]%Z) as ->.
  { destruct bf as [|? [|? ?]]; simpl in E; [injection E as -> ; reflexivity|discriminate|discriminate]. }
  destruct D as [D _]. inversion D.
Qed.
Print Assumptions C46_cer_refuted.
