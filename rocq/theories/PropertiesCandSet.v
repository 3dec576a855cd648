(** C88, C89: the repository of k-best candidates. *)
From Coq Require Import List Arith NArith Permutation.
From Verif Require Import CandSet CandSetSpec CandSetProofs.
Import ListNotations.

(** C88. A written repository is read back: words, features and statistics, up to what
    printing a number loses (rnd, rnd_f). Names of features may contain '='. *)
Theorem C88_file : forall V (print : V -> text) strtod F (print_f : F -> text) read_f rnd rnd_f,
  (forall v c, In c (print v) -> c <> SPACE /\ c <> EQUALS) -> (forall v, strtod (print v) = rnd v) ->
  (forall f, is_word (print_f f)) -> (forall f, read_f (print_f f) = Some (rnd_f f)) ->
  forall cs, Forall (storable V F) cs ->
  ReadFromFile V strtod F read_f (WriteToFile V print F print_f cs) = Some (map (rounded V F rnd rnd_f) cs).
Proof. exact file_ok. Qed.
Print Assumptions C88_file.

(** Finding: one candidate without features makes the whole file unreadable: it is written as
    an empty line, on which ParseSparseVector ends the program. *)
Theorem C88_empty_refuted : forall V (print : V -> text) strtod F (print_f : F -> text) read_f cs c, In c cs -> fmap V F c = [] ->
  ReadFromFile V strtod F read_f (WriteToFile V print F print_f cs) = None.
Proof. exact empty_refuted. Qed.
Print Assumptions C88_empty_refuted.

(** Finding: statistics without a metric are written as those of the metric NULL and read back
    as such. *)
Theorem C88_null_refuted : forall F (print_f : F -> text) read_f rnd_f,
  (forall f, is_word (print_f f)) -> (forall f, read_f (print_f f) = Some (rnd_f f)) ->
  forall fs, decode F read_f (Encode F print_f (Stats F [] fs)) = Stats F NULL_ (map rnd_f fs).
Proof. exact decode_null. Qed.
Print Assumptions C88_null_refuted.

(** C89. Removing duplicates invents nothing and loses nothing but candidates with the same
    words and the same rounded features as one which is kept. *)
Theorem C89_kept : forall H hash cs out, Dedup H hash cs out ->
  incl out cs /\ (forall c, In c cs -> exists d, In d out /\ approx d c) /\
  ForallOrdPairs (fun a b => hash (hashed a) = hash (hashed b) -> ~ approx a b) out.
Proof. exact dedup_ok. Qed.
Print Assumptions C89_kept.

(** C89. No two of the candidates left have the same words and features. *)
Theorem C89_identical : forall H hash cs out, Dedup H hash cs out -> NoDup (map (fun c => (words c, feats c)) out).
Proof. exact dedup_identical. Qed.
Print Assumptions C89_identical.

(** C89. Candidates which are merged have the same words, the same features and values which
    agree but for the lower half of the bits. *)
Theorem C89_near : forall a b, approx a b ->
  Forall (fun p => (snd p < 2 ^ 64 - 2 ^ 32)%N) (feats a) -> Forall (fun p => (snd p < 2 ^ 64 - 2 ^ 32)%N) (feats b) ->
  words a = words b /\ Forall2 (fun p q => fst p = fst q /\ (snd p <= snd q + 2 ^ 32 /\ snd q <= snd p + 2 ^ 32)%N) (feats a) (feats b).
Proof. exact approx_near. Qed.
Print Assumptions C89_near.

(** Finding: the hash is computed from the values before rounding, so candidates which are the
    same for the comparison may have different hashes and both be kept. *)
Theorem C89_hash_refuted : forall H hash, same c1 c2 = true /\ hashed c1 <> hashed c2 /\
  (hash (hashed c1) <> hash (hashed c2) -> Dedup H hash [c1; c2] [c1; c2]).
Proof. exact hash_refuted. Qed.
Print Assumptions C89_hash_refuted.

(** Finding: the mask of the rounding is 1 - MASK instead of the complement of MASK and lets
    one low bit through: values whose bits differ by 1 or by 4 are the same, values whose
    bits differ by 2 are not. *)
Theorem C89_round_refuted : let v := 0x3FF0000000000000%N in round v = v /\ round (v + 1) = v /\ round (v + 2) <> v /\ round (v + 4) = v.
Proof. exact round_refuted. Qed.
Print Assumptions C89_round_refuted.

(** A candidate with a feature named "a=b". *)
Example C88_ex : ReadFromFile nat (fun t => length t) nat (fun t => Some (length t))
  (WriteToFile nat (fun v => repeat 49 v) nat (fun v => repeat 49 (S v))
    [Candidate nat nat [[104; 105]; [121]] [([97; EQUALS; 98], 3); ([99], 2)] (Stats nat [66] [1; 4])]) =
  Some [Candidate nat nat [[104; 105]; [121]] [([97; EQUALS; 98], 3); ([99], 2)] (Stats nat [66] [2; 5])].
Proof. reflexivity. Qed.
Print Assumptions C88_ex.
Example C89_ex : Dedup nat (fun _ => 0) [Cand [7] [(1, 5%N)] 1; Cand [7] [(1, 4%N)] 2] [Cand [7] [(1, 4%N)] 2].
Proof.
  exists [Cand [7] [(1, 4%N)] 2]. split; [|reflexivity]. cbn [rev app].
  apply ai_cons with (u' := [Cand [7] [(1, 4%N)] 2]); [right; split; [intros e []|reflexivity]|].
  apply ai_cons with (u' := [Cand [7] [(1, 4%N)] 2]); [left; exists (Cand [7] [(1, 4%N)] 2); split; [left; reflexivity|split; reflexivity]|constructor].
Qed.
Print Assumptions C89_ex.
