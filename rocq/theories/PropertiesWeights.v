(** C90: escaping of feature names; C91: weights files and strings. *)
From Coq Require Import List Arith.
From Verif Require Import CandSet Weights WeightsSpec WeightsProofs.
Import ListNotations.

(** C90. Decoding an escaped string gives the string back, but for '+', which becomes a space;
    so two strings have the same escaped form exactly if they differ only in that. *)
Theorem C90_decode : forall s, ~ In 0 s -> UrlDecodeString (Escape s) = map blur s.
Proof. exact decode_string. Qed.
Print Assumptions C90_decode.

Theorem C90_same : forall a b, Escape a = Escape b <-> map blur a = map blur b.
Proof. exact escape_same. Qed.
Print Assumptions C90_same.

(** C90. Words have no spaces: the features for two different pairs of words have different
    names (lexalign.cc:78, the escaped words with '_' between them). *)
Theorem C90_pairs : forall f e f' e', ~ In 32 f -> ~ In 32 e -> ~ In 32 f' -> ~ In 32 e' ->
  Escape f ++ 95 :: Escape e = Escape f' ++ 95 :: Escape e' -> f = f' /\ e = e'.
Proof. exact pair_inj. Qed.
Print Assumptions C90_pairs.

(** C90. An escaped name has no character which is special in feature names and weights files
    ('=', ':', ';', ',', '_', '|', space); a string without them and '%' is not changed. *)
Theorem C90_safe : forall s c, In c (Escape s) -> ~ In c [61; 58; 59; 44; 95; 124; 32].
Proof.
  intros s c C X. destruct (Nat.eq_dec c PERCENT) as [-> |N].
  - cbn in X. repeat (destruct X as [X|X]; [discriminate|]). exact X.
  - apply (escape_no_special s c C N). unfold special. cbn [In] in X |- *. tauto.
Qed.
Print Assumptions C90_safe.

Theorem C90_unchanged : forall s, (forall c, In c s -> ~ In c [61; 58; 59; 44; 95; 124; 32; 37]) -> Escape s = s.
Proof. exact escape_plain. Qed.
Print Assumptions C90_unchanged.

(** C90. The buffers are large enough, with the final NUL. *)
Theorem C90_room : forall s, length (Escape s) + 1 <= encode_room s /\ length (UrlDecode s) + 1 <= decode_room s.
Proof. intros s. split; [exact (escape_room s)|exact (decode_room_ok s)]. Qed.
Print Assumptions C90_room.

(** Finding: '+' is not escaped though it stands for a space (fdict.cc:95-98), so "a b" and
    "a+b" have the same escaped name. *)
Theorem C90_plus_refuted : forall a b, Escape (a ++ 32 :: b) = Escape (a ++ 43 :: b).
Proof. exact plus_refuted. Qed.
Print Assumptions C90_plus_refuted.

(** "a_b=c" *)
Example C90_ex : Escape [97; 95; 98; 61; 99] = [97; 37; 53; 70; 98; 37; 51; 68; 99] /\ UrlDecodeString (Escape [97; 95; 98; 61; 99]) = [97; 95; 98; 61; 99].
Proof. split; reflexivity. Qed.
Print Assumptions C90_ex.

Section C91.
Variable V : Type.
Variable zero : V.
Variable isz isnan : V -> bool.
Variable print : V -> list nat.
Variable strtod : list nat -> V.
Hypothesis print_chars : forall v c, In c (print v) -> c <> SPACE /\ c <> TAB /\ c <> EQUALS /\ c <> NL.
Hypothesis strtod_print : forall v, isnan v = false -> strtod (print v) = v.
Hypothesis isz_zero : forall v, isz v = true <-> v = zero.

(** C91. Reading a weights file gives every feature the weight it was written with, whatever
    the numbers the features had and have, with zeros hidden or not; into a frozen
    dictionary, for the features it knows. *)
Theorem C91_read : forall frozen d w hide extra D, NoDup d -> Forall clean d -> (forall e, extra = Some e -> ~ In NL e) ->
  (forall v, In v w -> isnan v = false) -> isnan zero = false -> readable (WriteToFile V zero isz print d w hide extra) ->
  exists D' w', InitFromFile V zero isnan strtod frozen (WriteToFile V zero isz print d w hide extra) D [] = Some (D', w') /\
    (exists new, D' = D ++ new /\ (frozen = true -> new = [])) /\
    forall m v, frozen = false \/ In m D -> weighs V zero d w m v -> weighs V zero D' w' m v.
Proof. exact (read_back V zero isz isnan print strtod print_chars strtod_print isz_zero). Qed.

(** C91. Reading a file (without hidden zeros) into weights which are there already replaces
    those of the features in the file and keeps the others. *)
Theorem C91_over : forall frozen d w extra D w0, NoDup d -> NoDup D -> Forall clean d -> (forall e, extra = Some e -> ~ In NL e) ->
  (forall v, In v w -> isnan v = false) -> isnan zero = false -> readable (WriteToFile V zero isz print d w false extra) ->
  exists D' w', InitFromFile V zero isnan strtod frozen (WriteToFile V zero isz print d w false extra) D w0 = Some (D', w') /\
    forall m v, frozen = false \/ In m D ->
      (if in_dec (list_eq_dec Nat.eq_dec) m d then weighs V zero d w m v else weighs V zero D w0 m v) -> weighs V zero D' w' m v.
Proof. exact (update_kept V zero isz isnan print strtod print_chars strtod_print). Qed.

(** C91. Weights written as a string and taken over from it: every feature shown gets its
    weight, a hidden one (of weight zero) keeps the old weight. *)
Theorem C91_string : forall frozen d w hide w0 s, NoDup d -> Forall clean d -> (forall v, In v w -> isnan v = false) -> isnan zero = false ->
  GetString V zero isz print d w hide = Some s -> length d < length w0 ->
  exists w1, UpdateFromString V zero strtod frozen s d w0 = Some (d, w1) /\ length w1 = length w0 /\
    forall m v, In m d -> weighs V zero d w m v ->
      (hide = true /\ v = zero -> forall v0, weighs V zero d w0 m v0 -> weighs V zero d w1 m v0) /\
      (~ (hide = true /\ v = zero) -> weighs V zero d w1 m v).
Proof. exact (string_back V zero isz isnan print strtod print_chars strtod_print isz_zero). Qed.

(** C91. The sparse vector made of the weights has the features of weight other than zero. *)
Theorem C91_sparse : forall w j v, In (j, v) (InitSparseVector V isz w) <-> 1 <= j < length w /\ v = nth j w zero /\ v <> zero.
Proof. exact (sparse_spec V zero isz isz_zero). Qed.

(** Finding: the last '=' or tab of a line becomes a space even if a space comes after it
    (weights.cc:47-48): the weight written for a feature "a=b" is read as one for "a",
    with what "b" is read as. *)
Theorem C91_equals_refuted : forall a b w, clean a -> clean b -> let v := strtod (b ++ SPACE :: print (get V zero w 1)) in isnan v = false ->
  readable (WriteToFile V zero isz print [a ++ EQUALS :: b] w false None) ->
  InitFromFile V zero isnan strtod false (WriteToFile V zero isz print [a ++ EQUALS :: b] w false None) [] [] = Some ([a], [zero; v]).
Proof. exact (equals_refuted V zero isz isnan print strtod print_chars). Qed.

(** Finding: a name beginning with '#' is not changed by escaping (fdict.cc:98), but taken for
    a comment by the reader: the weight is lost. *)
Theorem C91_hash_refuted : forall frozen s w, ~ In NL s -> readable (WriteToFile V zero isz print [Escape (HASH :: s)] w false None) ->
  InitFromFile V zero isnan strtod frozen (WriteToFile V zero isz print [Escape (HASH :: s)] w false None) [] [] = Some ([], []).
Proof. exact (hash_refuted V zero isz isnan print strtod print_chars). Qed.

(** Finding: the check for the header (weights.cc:27-28) stops the program for a file of fewer
    than five characters, such as the empty one written for weights which are all zero;
    GetString throws for them. *)
Theorem C91_zero_refuted : forall frozen D w0 d w, (forall i, isz (get V zero w i) = true) ->
  InitFromFile V zero isnan strtod frozen (WriteToFile V zero isz print d w true None) D w0 = None /\ GetString V zero isz print d w true = None.
Proof. exact (all_zero_refuted V zero isz isnan print strtod). Qed.

Theorem C91_short_refuted : forall frozen file d w, length file < 5 -> InitFromFile V zero isnan strtod frozen file d w = None.
Proof. exact (short_refuted V zero isnan strtod). Qed.

(** Finding: UpdateFromString writes past the end of the weights for a new feature
    (weights.cc:182-183). *)
Theorem C91_unknown_refuted : forall n t s d w, ~ In EQUALS n -> ~ In n d -> length w <= S (length d) ->
  update_tokens V zero strtod false ((n ++ EQUALS :: t) :: s) d w = None.
Proof. exact (unknown_refuted V zero strtod). Qed.
End C91.
Print Assumptions C91_read.
Print Assumptions C91_over.
Print Assumptions C91_string.
Print Assumptions C91_sparse.
Print Assumptions C91_equals_refuted.
Print Assumptions C91_hash_refuted.
Print Assumptions C91_zero_refuted.
Print Assumptions C91_short_refuted.
Print Assumptions C91_unknown_refuted.

(** C91. Escaping makes every name fit for a weights file but those with a tab or newline and
    those beginning with '#'. *)
Theorem C91_escaped : forall s, s <> [] -> ~ In TAB s -> ~ In NL s -> (forall t, s <> HASH :: t) -> clean (Escape s).
Proof. exact escape_clean. Qed.
Print Assumptions C91_escaped.

(** Features "ab" (weight 2), "cd" (0, hidden) and "LM" (1), read where "LM" and "x" are known;
    numbers are in unary. *)
Definition ex_file : list nat := WriteToFile nat 0 (fun v => v =? 0) ex_print [[97; 98]; [99; 100]; [76; 77]] [0; 2; 0; 1] true (Some [33]).
Example C91_ex : (forall v c, In c (ex_print v) -> c <> SPACE /\ c <> TAB /\ c <> EQUALS /\ c <> NL) /\
  (forall v, (fun _ : nat => false) v = false -> ex_strtod (ex_print v) = v) /\ (forall v, (v =? 0) = true <-> v = 0) /\
  ex_file = [35; 32; 33; 10; 97; 98; 32; 49; 49; 10; 76; 77; 32; 49; 10] /\ 5 <= length ex_file /\ firstn 5 ex_file <> MAGIC /\
  InitFromFile nat 0 (fun _ => false) ex_strtod false ex_file [[76; 77]; [120]] [] = Some ([[76; 77]; [120]; [97; 98]], [0; 1; 0; 2]).
Proof.
  split; [exact ex_print_chars|]. split; [exact ex_strtod_print|]. split; [exact ex_isz|]. split; [reflexivity|]. split; [cbv; repeat constructor|]. split; [discriminate|reflexivity].
Qed.
Print Assumptions C91_ex.
