(** C01: the dictionary (utils/dict.h).  Specification vocabulary:
    [history_words h] (DictProofs.v) lists the words that the calls of [h] ask to
    add, [in_budget h] says there are fewer than 2^31 of them. *)
From Coq Require Import String Ascii List ZArith.
From Verif Require Import Dict DictProofs.
Import ListNotations.
Open Scope Z_scope.

(** Converting a word after any history gives an id >= 1 which maps back to the
    word now and after any further history, and later conversions (frozen or
    not) of the word return the same id. *)
Theorem C01_ids_stable : forall h w h',
  in_budget (h ++ CallConvert w :: h') ->
  let '(i, s1) := convert_word (dict_run dict_init h) w false in
  let s2 := dict_run s1 h' in
  1 <= i /\ convert_id s1 i = Some w /\ convert_id s2 i = Some w /\
  fst (convert_word s2 w false) = i /\ fst (convert_word s2 w true) = i.
Proof. exact dict_stable. Qed.
Print Assumptions C01_ids_stable.

Theorem C01_ids_injective : forall h w1 w2,
  in_budget (h ++ [CallConvert w1; CallConvert w2]) ->
  let '(i1, s1) := convert_word (dict_run dict_init h) w1 false in
  let '(i2, _) := convert_word s1 w2 false in
  i1 = i2 <-> w1 = w2.
Proof. exact dict_injective. Qed.
Print Assumptions C01_ids_injective.

(** A frozen lookup changes nothing; it returns 0 exactly for unknown words. *)
Theorem C01_frozen : forall h w,
  in_budget h ->
  let s := dict_run dict_init h in
  snd (convert_word s w true) = s /\
  (fst (convert_word s w true) = 0 <-> ~ In w (history_words h)) /\
  (In w (history_words h) -> convert_id s (fst (convert_word s w true)) = Some w).
Proof. exact dict_frozen. Qed.
Print Assumptions C01_frozen.

Theorem C01_max_is_word_count : forall h,
  in_budget h ->
  exists l, NoDup l /\ (forall w, In w l <-> In w (history_words h)) /\
            dict_max (dict_run dict_init h) = Z.of_nat (length l).
Proof. exact dict_max_count. Qed.
Print Assumptions C01_max_is_word_count.

(** Converting a line gives the ids of its blank/tab separated tokens in order. *)
Theorem C01_line : forall h line,
  in_budget (h ++ [CallLine line]) ->
  let '(ids, s') := convert_line (dict_run dict_init h) line in
  map (convert_id s') ids = map Some (tokens_spec line).
Proof. exact dict_line. Qed.
Print Assumptions C01_line.

Example C01_history : list dcall :=
  [CallLine " the  cat the"; CallFrozen "dog"; CallConvert "dog"; CallConvert "cat"; CallLookup 2].
Example C01_example_budget : in_budget C01_history.
Proof. vm_compute. reflexivity. Qed.
Example C01_example_ids :
  fst (convert_word (dict_run dict_init C01_history) "dog" true) = 3 /\
  fst (convert_word (dict_run dict_init C01_history) "bird" true) = 0 /\
  convert_id (dict_run dict_init C01_history) 1 = Some "the"%string /\
  dict_max (dict_run dict_init C01_history) = 3 /\
  tokens_spec " the  cat the" = ["the"; "cat"; "the"]%string.
Proof. vm_compute. repeat split. Qed.
