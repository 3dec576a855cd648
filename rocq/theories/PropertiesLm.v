(** C49: the language model feature; C50: scoring word by word; C51: the word and class maps. *)
From Coq Require Import List ZArith Bool Permutation Lia.
Import ListNotations.
From Verif Require Import Opt Lm LmSpec LmExample LmProofs LmChartProofs LmFeatureProofs LmMainProofs.
Open Scope Z_scope.

(** Sentence markers added by the feature: however the derivation brackets the words, the
    feature values add up to the score of the whole sentence, and no access is out of
    bounds. *)
Theorem C49_score : forall m f eos d, well_built m -> loaded f eos -> linear d -> no_sos_rule f d -> ~ In (kEOS f) (map (lm_word f) (yield d)) ->
  Score m f true d = Some (seq_score m [kSOS f] (map (lm_word f) (yield d) ++ [kEOS f]), count_oov f (yield d), sum_emission f (yield d)).
Proof. intros m f eos d WB LD. exact (score_implicit m WB f eos LD d). Qed.
Print Assumptions C49_score.

Definition ex_left : deriv := Apply [0; 14] [Apply [0; 14] [Apply [13] []]].
Definition ex_right : deriv := Apply [0; -1] [Apply [13] []; Apply [14; 0] [Apply [14] []]].
Definition ex_swap : deriv := Apply [-1; 0; 14] [Apply [14] []; Apply [13] []].
Ltac lin := repeat (constructor; try apply perm_swap; try (cbn; discriminate)).
Example C49_score_ex : Score ex_m ex_f true ex_left = Some (-30, 0, 0) /\ Score ex_m ex_f true ex_right = Some (-30, 0, 0) /\ Score ex_m ex_f true ex_swap = Some (-30, 0, 0)
  /\ seq_score ex_m [1%nat] [3; 4; 4; 2]%nat = -30 /\ well_built ex_m /\ loaded ex_f 12 /\ linear ex_swap /\ no_sos_rule ex_f ex_swap /\ ~ In (kEOS ex_f) (map (lm_word ex_f) (yield ex_swap)).
Proof.
  repeat match goal with |- _ /\ _ => split end; try (vm_compute; reflexivity).
  - apply ex_built.
  - apply ex_loaded.
  - unfold ex_swap. lin.
  - unfold ex_swap. lin.
  - vm_compute. intros H. repeat (destruct H as [H|H]; [discriminate H|]). exact H.
Qed.

(** The asserts of the code stop exactly the derivations with <s> at the front of a rule
    or with </s>. *)
Theorem C49_assert : forall m f eos d, well_built m -> loaded f eos -> linear d ->
  (Score m f true d = None <-> In TSOS (toks f d) \/ In (TW (kEOS f)) (toks f d)).
Proof. intros m f eos d WB LD. exact (score_implicit_assert m WB f eos LD d). Qed.
Print Assumptions C49_assert.
Example C49_assert_ex : Score ex_m ex_f true (Apply [13; 0] [Apply [12] []]) = None /\ Score ex_m ex_f true (Apply [0] [Apply [11; 13] []]) = None /\ linear (Apply [13; 0] [Apply [12] []]).
Proof. split; [vm_compute; reflexivity|]. split; [vm_compute; reflexivity|lin]. Qed.

(** Sentence markers produced by the rules: a sentence with its markers in place gets the
    same score, without penalty. *)
Theorem C49_explicit : forall m f eos d ws x, well_built m -> loaded f eos -> linear d -> nonempty d ->
  yield d = kCDEC_SOS f :: ws ++ [x] -> ~ In (kCDEC_SOS f) (ws ++ [x]) -> lm_word f x = kEOS f -> ~ In (kEOS f) (map (lm_word f) ws) ->
  (forall g, bow m (kEOS f :: g) = 0) ->
  Score m f false d = Some (seq_score m [kSOS f] (map (lm_word f) ws ++ [kEOS f]), count_oov f (yield d), sum_emission f (yield d)).
Proof. intros m f eos d ws x WB LD. exact (score_explicit m WB f eos LD d ws x). Qed.
Print Assumptions C49_explicit.
Definition ex_marked : deriv := Apply [0; -1; 12] [Apply [11; 0] [Apply [13] []]; Apply [14; 14] []].
Example C49_explicit_ex : Score ex_m ex_f false ex_marked = Some (-30, 0, 0) /\ linear ex_marked /\ nonempty ex_marked /\ yield ex_marked = 11 :: [13; 14; 14] ++ [12] /\ lm_word ex_f 12 = kEOS ex_f
  /\ (forall g, bow ex_m (kEOS ex_f :: g) = 0).
Proof.
  split; [vm_compute; reflexivity|]. split; [unfold ex_marked; lin|]. split; [unfold ex_marked; lin|]. split; [reflexivity|]. split; [reflexivity|].
  intros [|b g]; [reflexivity|]. unfold bow. destruct (entry ex_m (kEOS ex_f :: b :: g)) as [w|] eqn:E; [|reflexivity].
  apply entry_mk in E; [|cbn; lia]. destruct E as (w' & Hi & Hw). cbn in Hi. decompose [or] Hi; clear Hi; try contradiction;
    match goal with H : (_, _) = (_, _) |- _ => try discriminate H; injection H; intros; subst end; destruct Hw as [->| ->]; reflexivity.
Qed.

(** Markers anywhere: the score of what was read, the back-off weights of the last words
    from some length on, and a number of penalties that is zero only for sentences with
    their markers in place - and is zero for them if no constituent is empty. *)
Theorem C49_explicit_any : forall m f eos d, well_built m -> loaded f eos -> linear d -> ordinary m ->
  exists k j, 0 <= k /\ (j <= length (thist f [] (toks f d)))%nat
  /\ Score m f false d = Some (tscore m f [] (toks f d) + pending m j (thist f [] (toks f d)) - hundred * k, count_oov f (yield d), sum_emission f (yield d))
  /\ (k = 0 -> well_marked f (toks f d)) /\ (nonempty d -> well_marked f (toks f d) -> k = 0).
Proof. intros m f eos d WB LD. exact (score_explicit_any m WB f eos LD d). Qed.
Print Assumptions C49_explicit_any.
Example C49_explicit_any_ex : well_built ex2_m /\ ordinary ex2_m /\ Score ex2_m ex_f false (Apply [13; 0; 13] [Apply [12] []]) = Some (-10 - 7 + (-5) - 10 - hundred * 2, 0, 0)
  /\ linear (Apply [13; 0; 13] [Apply [12] []]) /\ toks ex_f (Apply [13; 0; 13] [Apply [12] []]) = [TW 3%nat; TW 2%nat; TW 3%nat].
Proof. split; [apply ex2_built|]. split; [apply ex2_ordinary|]. split; [vm_compute; reflexivity|]. split; [lin|reflexivity]. Qed.

(** Finding: a second <s> inside a rule is not penalised. *)
Theorem C49_inner_sos_refuted : exists m f eos d, well_built m /\ loaded f eos /\ linear d /\ nonempty d /\ yield d = [kCDEC_SOS f; 13; kCDEC_SOS f; 14; eos]
  /\ Score m f false d = Some (seq_score m [kSOS f] (map (lm_word f) [13; kCDEC_SOS f; 14; eos]), 0, 0).
Proof.
  exists ex_m, ex_f, 12, (Apply [11; 13; 11; 14; 12] []). split; [apply ex_built|]. split; [apply ex_loaded|]. split; [lin|]. split; [lin|]. split; [reflexivity|]. vm_compute. reflexivity.
Qed.
Print Assumptions C49_inner_sos_refuted.

(** Finding: an empty constituent in front of a well-marked sentence costs a penalty. *)
Theorem C49_empty_constituent_refuted : exists m f eos d, well_built m /\ loaded f eos /\ linear d /\ yield d = [kCDEC_SOS f; 13; eos]
  /\ Score m f false d = Some (seq_score m [kSOS f] (map (lm_word f) [13; eos]) - hundred, 0, 0).
Proof.
  exists ex_m, ex_f, 12, (Apply [0; -1] [Apply [] []; Apply [11; 13; 12] []]). split; [apply ex_built|]. split; [apply ex_loaded|]. split; [lin|]. split; [reflexivity|]. vm_compute. reflexivity.
Qed.
Print Assumptions C49_empty_constituent_refuted.

(** Finding: with back-off weights on n-grams that end in </s> the score depends on the derivation. *)
Theorem C49_eos_backoff_refuted : exists m f eos d1 d2, well_built m /\ loaded f eos /\ linear d1 /\ linear d2 /\ nonempty d1 /\ nonempty d2 /\ yield d1 = [kCDEC_SOS f; 13; eos] /\ yield d2 = yield d1
  /\ Score m f false d1 = Some (seq_score m [kSOS f] (map (lm_word f) [13; eos]), 0, 0) /\ Score m f false d2 <> Score m f false d1.
Proof.
  exists ex2_m, ex_f, 12, (Apply [11; 13; 12] []), (Apply [11; 13; 0] [Apply [12] []]). split; [apply ex2_built|]. split; [apply ex_loaded|]. split; [lin|]. split; [lin|]. split; [lin|]. split; [lin|].
  split; [reflexivity|]. split; [reflexivity|]. split; [vm_compute; reflexivity|]. vm_compute. discriminate.
Qed.
Print Assumptions C49_eos_backoff_refuted.

(** ** C50 *)

Theorem C50_sentence : forall m, well_built m -> forall b ws, exists s, run m (BeginSentenceState m b) ws = Some (seq_score m [b] ws, s) /\ (ws <> [] -> state_of m (rev ws ++ [b]) s).
Proof. exact run_begin. Qed.
Print Assumptions C50_sentence.
Example C50_sentence_ex : well_built ex_m /\ run ex_m (BeginSentenceState ex_m 1%nat) [3; 4; 4; 3; 2]%nat = Some (seq_score ex_m [1%nat] [3; 4; 4; 3; 2]%nat, State [] []) /\ seq_score ex_m [1%nat] [3; 4; 4; 3; 2]%nat = -5 - 3 - 15 - 12 - 15.
Proof. split; [apply ex_built|]. split; vm_compute; reflexivity. Qed.

Theorem C50_fragment : forall m, well_built m -> forall ws, exists s, run m (State [] []) ws = Some (seq_score m [] ws, s) /\ state_of m (rev ws) s.
Proof. exact run_null. Qed.
Print Assumptions C50_fragment.
Example C50_fragment_ex : run ex_m (State [] []) [3; 4]%nat = Some (-10 - 6, State [4; 3]%nat [-2; -2]).
Proof. vm_compute. reflexivity. Qed.

(** Without a state: the same probability for any context, and the same state. *)
Theorem C50_no_state : forall m, well_built m -> forall h w, exists r s, FullScoreForgotState m h w = Some (r, s) /\ r_prob r = logprob m w h /\ state_of m (w :: h) s.
Proof. exact forgot_ok. Qed.
Print Assumptions C50_no_state.
Example C50_no_state_ex : logprob ex_m 2%nat [4; 4; 3; 1]%nat = -7 /\ option_map (fun p => r_prob (fst p)) (FullScoreForgotState ex_m [4; 4; 3; 1]%nat 2%nat) = Some (-7)
  /\ logprob ex_m 3%nat [4; 3; 1]%nat = -10 - 2 - 2 /\ option_map (fun p => r_prob (fst p)) (FullScoreForgotState ex_m [4; 3; 1]%nat 3%nat) = Some (-14).
Proof. repeat split; vm_compute; reflexivity. Qed.

Theorem C50_get_state : forall m, well_built m -> forall h, exists s, GetState m h = Some s /\ state_of m h s.
Proof. exact get_state_ok. Qed.
Print Assumptions C50_get_state.
Example C50_get_state_ex : GetState ex_m [4; 3; 1]%nat = Some (State [4; 3]%nat [-2; -2]) /\ GetState ex_m [2; 4; 3]%nat = Some (State [] []).
Proof. repeat split; vm_compute; reflexivity. Qed.

(** The state is determined by the history. *)
Theorem C50_state_unique : forall m h s1 s2, state_of m h s1 -> state_of m h s2 -> s1 = s2.
Proof. exact state_of_unique. Qed.
Print Assumptions C50_state_unique.
Example C50_state_unique_ex : state_of ex_m [4; 3; 1]%nat (State [4; 3]%nat [-2; -2]).
Proof. destruct (get_state_ok ex_m ex_built [4; 3; 1]%nat) as (s & H1 & H2). replace (State [4; 3]%nat [-2; -2]) with s; [exact H2|]. vm_compute in H1. injection H1 as <-. reflexivity. Qed.

(** ** C51 *)

Theorem C51_load : forall vocab unk sos eos classes f, LoadFeature vocab unk sos eos classes = Some f -> (0 < sos)%nat -> sos <> unk -> eos <> unk -> sos <> eos ->
  loaded f (Z.of_nat eos)
  /\ (classes = None -> forall x, lm_word f (Z.of_nat x) = vocab_index vocab x /\ emission f (Z.of_nat x) = 0)
  /\ (forall lines, classes = Some lines -> forall x, let ce := class_entry (Z.of_nat unk) ((sos, Z.of_nat sos, 0) :: (eos, Z.of_nat eos, 0) :: lines) x in
      lm_word f (Z.of_nat x) = vocab_index vocab (Z.to_nat (fst ce)) /\ emission f (Z.of_nat x) = snd ce).
Proof. exact load_ok. Qed.
Print Assumptions C51_load.
Definition ex_lf := LoadFeature [(1, 0); (2, 1); (3, 2); (7, 3)]%nat 1 2 3 (Some [(9%nat, 7, -30); (4%nat, 7, -20)]).
Example C51_load_ex : option_map (fun f => (kSOS f, kEOS f, lm_word f 9, emission f 9, lm_word f 4, emission f 4, lm_word f 7, emission f 7, lm_word f 2)) ex_lf
  = Some (1%nat, 2%nat, 3%nat, -30, 3%nat, -20, 0%nat, 0, 1%nat).
Proof. vm_compute. reflexivity. Qed.
