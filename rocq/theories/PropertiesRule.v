(** C37: substitution into translation rules and the sentences of derivations; C47: rules in
    binary archives (decoder/trule.h, trule.cc, viterbi.h).  Vocabulary in RuleSpec.v. *)
From Coq Require Import String List ZArith Lia Permutation.
From Verif Require Import Opt Dict DictProofs Rule RuleSpec RuleProofs.
Import ListNotations.
Open Scope Z_scope.

(** ** C37 *)
(** With one yield per variable the target side is its words with every variable replaced by
    its own yield, whatever the order of the variables. *)
Theorem C37_target : forall e f ys, wf_rule e f -> length ys = length (vars_of f) -> ESubstitute e ys = Some (target_of e ys).
Proof. exact esubstitute. Qed.
Print Assumptions C37_target.
(** The source side takes the yields in order, and is defined exactly when there is one per
    category. *)
Theorem C37_source : forall f ys r, FSubstitute f ys = Some r <-> source_of f ys r.
Proof. exact fsubstitute. Qed.
Print Assumptions C37_source.
(** The arity of a rule is its number of variables, and both word counts are right. *)
Theorem C37_arity : forall e f, wf_rule e f -> (length (vars_of f) <= 127)%nat -> ComputeArity e = Z.of_nat (length (vars_of f)).
Proof. exact arity_ok. Qed.
Print Assumptions C37_arity.
Theorem C37_words : forall e f, wf_rule e f -> (length (vars_of f) <= 127)%nat ->
  EWords e (ComputeArity e) = Z.of_nat (length (words_of e)) /\ FWords f (ComputeArity e) = Z.of_nat (length (words_of f)).
Proof. exact ewords_ok. Qed.
Print Assumptions C37_words.
(** One variable more and it is negative. *)
Theorem C37_arity_refuted : exists e f, wf_rule e f /\ length (vars_of f) = 128%nat /\ ComputeArity e = -128.
Proof.
  exists (map (fun k => - Z.of_nat k) (seq 0 128)), (repeat (-1) 128). split; [|split; vm_compute; reflexivity].
  unfold wf_rule. replace (length (vars_of (repeat (-1) 128))) with 128%nat by (vm_compute; reflexivity).
  replace (vars_of (map (fun k => - Z.of_nat k) (seq 0 128))) with (map (fun k => - Z.of_nat k) (seq 0 128)) by (vm_compute; reflexivity). apply Permutation_refl.
Qed.
Print Assumptions C37_arity_refuted.
(** Every derivation of well-formed rules has a source and a target sentence; they are the
    pair the synchronous grammar gives, and the predicted target length is right. *)
Theorem C37_derivation : forall d, wf_deriv d ->
  exists es fs, esentence d = Some es /\ fsentence d = Some fs /\ pair_of d es fs /\ elength d = Z.of_nat (length es).
Proof. exact derivation. Qed.
Print Assumptions C37_derivation.
(** A monolingual rule says the same on both sides. *)
Theorem C37_mono : forall f ys, ~ In 0 f -> wf_rule (renumber f 0) f /\ ESubstitute (renumber f 0) ys = FSubstitute f ys.
Proof. intros f ys H. split; [apply mono_wf|apply mono]; exact H. Qed.
Print Assumptions C37_mono.
(** The check at the end of the substitution counts: it does not notice that one yield is used
    twice and another not at all. *)
Theorem C37_check_refuted : exists e ys y z, ys = [y; z] /\ y <> z /\ ESubstitute e ys = Some (y ++ y).
Proof. exists [0; 0], [[1]; [2]], [1], [2]. split; [reflexivity|]. split; [discriminate|]. reflexivity. Qed.
Print Assumptions C37_check_refuted.

(** [X] ||| ne [X] pas [X] ||| [2] not [1] *)
Example C37_ex_rule : wf_rule [-1; 7; 0] [3; -9; 4; -9] /\
  ESubstitute [-1; 7; 0] [[10; 11]; [12]] = Some [12; 7; 10; 11] /\
  FSubstitute [3; -9; 4; -9] [[10; 11]; [12]] = Some [3; 10; 11; 4; 12] /\ ComputeArity [-1; 7; 0] = 2.
Proof. split; [apply perm_swap|]. repeat split. Qed.
Example C37_ex_deriv : let d := Node [-1; 7; 0] [3; -9; 4; -9] [Node [20] [30] []; Node [0; 5] [6; -9] [Node [21] [31; 32] []]] in
  wf_deriv d /\ esentence d = Some [21; 5; 7; 20] /\ fsentence d = Some [3; 30; 4; 6; 31; 32] /\ elength d = 4.
Proof.
  cbv zeta. split; [|repeat split].
  assert (L : forall a b, 1 <= a -> 1 <= b -> wf_deriv (Node [a] [b] [])).
  { intros a b A B. constructor; unfold wf_rule, vars_of; cbn [filter]; rewrite ?(proj2 (Z.ltb_ge a 1)), ?(proj2 (Z.ltb_ge b 1)) by lia; cbn; auto; try lia; apply Permutation_refl. }
  constructor; [apply perm_swap|reflexivity|cbn; lia|]. constructor; [apply L; lia|]. constructor; [|constructor].
  constructor; [apply Permutation_refl|reflexivity|cbn; lia|]. constructor; [|constructor]. constructor; [apply Permutation_refl|reflexivity|cbn; lia|constructor].
Qed.
Example C37_ex_mono : renumber [3; -9; 4; -9] 0 = [3; 0; 4; -1] /\ ~ In 0 [3; -9; 4; -9].
Proof. split; [reflexivity|]. cbn. lia. Qed.

(** ** C47 *)
(** A rule with up to 64 symbols on a side, whose words the program knows, can be written;
    another program, whatever words it has seen, reads a rule which says the same: the same
    category, the same words, categories and variables, the same arity and scores.  It reads
    no more than was written, and what its own ids mean stays. *)
Theorem C47_other_program : forall scores h1 h2 (r : trule scores) l fs es,
  in_budget h1 -> Z.of_nat (length (history_words h2)) + 129 < 2 ^ 31 ->
  says (dict_run dict_init h1) r l fs es -> (length (f_ scores r) <= 64)%nat -> (length (e_ scores r) <= 64)%nat ->
  exists ar, save scores (dict_run dict_init h1) r = Some ar /\
  forall rest, exists r' s, load scores (dict_run dict_init h2) (ar ++ rest) = Some (r', s, rest) /\
    says s r' l fs es /\ arity scores r' = arity scores r /\ scores_ scores r' = scores_ scores r /\
    (forall i w, word_of (dict_run dict_init h2) i w -> word_of s i w).
Proof. exact @archive_other. Qed.
Print Assumptions C47_other_program.
(** In the same program the rule read back is the rule, without its word alignment. *)
Theorem C47_round_trip : forall scores h (r : trule scores) l fs es, Z.of_nat (length (history_words h)) + 129 < 2 ^ 31 ->
  says (dict_run dict_init h) r l fs es -> (length (f_ scores r) <= 64)%nat -> (length (e_ scores r) <= 64)%nat ->
  exists ar, save scores (dict_run dict_init h) r = Some ar /\
  forall rest, load scores (dict_run dict_init h) (ar ++ rest) =
    Some ({| lhs := lhs scores r; f_ := f_ scores r; e_ := e_ scores r; arity := arity scores r; scores_ := scores_ scores r; a_ := [] |}, dict_run dict_init h, rest).
Proof. exact @archive_same. Qed.
Print Assumptions C47_round_trip.
(** A longer rule cannot be written. *)
Theorem C47_long : forall scores s (r : trule scores), (64 < length (f_ scores r))%nat \/ (64 < length (e_ scores r))%nat -> save scores s r = None.
Proof. exact @too_long. Qed.
Print Assumptions C47_long.
(** The word alignment is lost. *)
Theorem C47_alignment_refuted : exists h (r : trule unit) ar r' s, save unit (dict_run dict_init h) r = Some ar /\
  load unit (dict_run dict_init h) ar = Some (r', s, []) /\ a_ unit r <> a_ unit r'.
Proof.
  exists [CallLine "X a b"], {| lhs := -1; f_ := [2]; e_ := [3]; arity := 0; scores_ := tt; a_ := [(0, 0)] |}. eexists. eexists. eexists.
  split; [cbv; reflexivity|]. split; [cbv; reflexivity|]. discriminate.
Qed.
Print Assumptions C47_alignment_refuted.
(** A rule without a left-hand side (0) comes back with one. *)
Theorem C47_lhs_refuted : exists h (r : trule unit) ar r' s, save unit (dict_run dict_init h) r = Some ar /\
  load unit (dict_run dict_init h) ar = Some (r', s, []) /\ lhs unit r = 0 /\ lhs unit r' = -4 /\ convert_id s 4 = Some b0_.
Proof.
  exists [CallLine "X a b"], {| lhs := 0; f_ := [2]; e_ := [3]; arity := 0; scores_ := tt; a_ := [] |}. eexists. eexists. eexists.
  split; [cbv; reflexivity|]. split; [cbv; reflexivity|]. repeat split.
Qed.
Print Assumptions C47_lhs_refuted.

(** [X] ||| ne [X] pas ||| [1] not, from one program to another *)
Example C47_ex : let h1 := [CallLine "X ne pas not"] in let h2 := [CallLine "not seen S"] in
  let r := {| lhs := -1; f_ := [2; -1; 3]; e_ := [0; 4]; arity := 1; scores_ := 17; a_ := [] |} in
  says (dict_run dict_init h1) r "X" [Word "ne"; Cat "X"; Word "pas"] [Var 0; Word "not"] /\
  exists ar s, save Z (dict_run dict_init h1) r = Some ar /\
    load Z (dict_run dict_init h2) ar = Some ({| lhs := -4; f_ := [5; -4; 6]; e_ := [0; 1]; arity := 1; scores_ := 17; a_ := [] |}, s, []).
Proof.
  cbv zeta. split.
  - unfold says. cbn [lhs f_ e_]. split; [lia|]. split; [split; [lia|vm_compute; reflexivity]|].
    split; repeat (apply Forall2_cons || apply Forall2_nil); constructor; try lia; split; try lia; vm_compute; reflexivity.
  - eexists. eexists. split; [cbv; reflexivity|]. cbv. reflexivity.
Qed.
