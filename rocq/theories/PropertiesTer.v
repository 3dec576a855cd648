(** C24: translation edit rate. *)
From Coq Require Import List Arith ZArith Lia.
From Verif Require Import Leven LevenSpec LevenProofs Ter TerSpec TerProofs.
Import ListNotations.
Open Scope nat_scope.

(** The edit distance routine: the least number of edits, and the counts of an
    alignment that has exactly so many. *)
Theorem C24_distance : forall hyp ref, exists d path s i e,
  MinimumEditDistance hyp ref = Some (d, path) /\ is_distance hyp ref d /\
  GetPathStats path = (s, i, e) /\ aligned s i e hyp ref /\ s + i + e = d.
Proof.
  intros hyp ref. destruct (med_ok hyp ref) as (p & E & S & C). unfold cost in C.
  destruct (GetPathStats p) as [[s i] e] eqn:G. exists (L hyp ref), p, s, i, e.
  split; [exact E|]. split; [apply L_distance|]. split; [exact G|]. split; [|exact C]. eapply script_aligned; eauto.
Qed.
Print Assumptions C24_distance.

Example C24_distance_ex : MinimumEditDistance [1; 2; 3; 4]%Z [2; 3; 5; 4]%Z = Some (2, [INSERTION; MATCH; MATCH; DELETION; MATCH]).
Proof. reflexivity. Qed.

(** A shift moves a block of words. *)
Theorem C24_shift : forall l start end_ mv,
  (0 <= start <= end_)%Z -> (end_ < Z.of_nat (length l))%Z -> (-1 <= mv < Z.of_nat (length l))%Z ->
  exists out, PerformShift l start end_ mv = Some out /\ block_move l out.
Proof. intros l s e m A B C. destruct (PerformShift_ok l s e m A B C) as (out & E & M & _). eauto. Qed.
Print Assumptions C24_shift.

Example C24_shift_ex : PerformShift [1; 2; 3; 4; 5]%Z 1 2 3 = Some [1; 4; 2; 3; 5]%Z /\ PerformShift [1; 2; 3; 4; 5]%Z 2 3 (-1) = Some [3; 4; 1; 2; 5]%Z.
Proof. split; reflexivity. Qed.

(** The score of a hypothesis of up to 1024 words against a reference of up to 1025:
    the shift search ends; the score is the sum of the four counts; that many block
    moves lead to a word sequence which aligns with the reference with those counts,
    and needs no fewer edits; the score is at most the plain edit distance. *)
Theorem C24_score : forall hyp ref, length hyp <= 1024 -> length ref <= 1025 ->
  exists t, result_of (fun rounds => Calculate rounds ref hyp) t /\
    t_score t = t_subs t + t_ins t + t_dels t + t_shifts t /\
    ter_meaning hyp ref (t_subs t) (t_ins t) (t_dels t) (t_shifts t) /\
    (forall d, is_distance hyp ref d -> t_score t <= d).
Proof. exact ter_score. Qed.
Print Assumptions C24_score.

Example C24_score_ex : Calculate 9 [1; 2; 3; 4; 5; 6; 7]%Z [4; 5; 6; 1; 2; 3; 8]%Z =
  Some {| t_score := 2; t_subs := 1; t_ins := 0; t_dels := 0; t_shifts := 1 |}.
Proof. reflexivity. Qed.

(** In particular only a perfect hypothesis has score zero. *)
Theorem C24_zero : forall hyp ref t, length hyp <= 1024 -> length ref <= 1025 ->
  result_of (fun rounds => Calculate rounds ref hyp) t -> (t_score t = 0 <-> hyp = ref).
Proof.
  intros hyp ref t H R (n & E). destruct (ter_score hyp ref H R) as (t' & (n' & E') & S & M & D).
  specialize (E (n + n') ltac:(lia)). rewrite E' in E by lia. injection E as ->. split.
  - intros Z. apply meaning_zero.
    replace (t_subs t) with 0 in M by lia. replace (t_ins t) with 0 in M by lia.
    replace (t_dels t) with 0 in M by lia. replace (t_shifts t) with 0 in M by lia. exact M.
  - intros ->. specialize (D 0). assert (is_distance ref ref 0) as I; [|specialize (D I); lia].
    split; [constructor|]. intros; lia.
Qed.
Print Assumptions C24_zero.

(** Several references: the counts of the first reference with the least score, and
    the average reference length rounded down. *)
Theorem C24_stats : forall hyp refs, refs <> [] -> length hyp <= 1024 -> (forall r, In r refs -> length r <= 1025) ->
  exists before r after t, refs = before ++ r :: after /\ result_of (fun rounds => Calculate rounds r hyp) t /\
    result_of (fun rounds => ter_stats rounds hyp refs) (t, list_sum (map (@length Z) refs) / length refs) /\
    (forall r' t', In r' before -> result_of (fun rounds => Calculate rounds r' hyp) t' -> t_score t < t_score t') /\
    (forall r' t', In r' after -> result_of (fun rounds => Calculate rounds r' hyp) t' -> t_score t <= t_score t').
Proof. exact ter_stats_ok. Qed.
Print Assumptions C24_stats.

Example C24_stats_ex : ter_stats 9 [1; 2; 3]%Z [[4; 5]; [2; 3; 1]; [1; 2; 4; 5]]%Z =
  Some ({| t_score := 1; t_subs := 0; t_ins := 0; t_dels := 0; t_shifts := 1 |}, 3).
Proof. reflexivity. Qed.

(** The bound on the reference is exact: a reference position above 1024 comes out of
    its 11 bits as a negative number, and is then used as an index. *)
Theorem C24_long_refuted : exists hyp ref, length hyp = 2 /\ length ref = 1026 /\ forall rounds, Calculate rounds ref hyp = None.
Proof.
  exists [8; 7]%Z, (repeat 0%Z 1024 ++ [7; 8]%Z). split; [reflexivity|]. split; [vm_compute; reflexivity|].
  intros [|n]; vm_compute; reflexivity.
Qed.
Print Assumptions C24_long_refuted.
