(** Lexical translation probabilities of a word-aligned corpus. *)
From Coq Require Import String List Arith Bool Reals.
From Verif Require Import Lex.
Import ListNotations.
Local Open Scope nat_scope.

(** a sentence pair with its links *)
Record sentence := { src : list string; tgt : list string; links : list (nat * nat) }.
Definition in_range (s : sentence) : Prop := Forall (fun ij => fst ij < length (src s) /\ snd ij < length (tgt s)) (links s).
(** the words at positions which are not among [is] *)
Definition unlinked (ws : list string) (is : list nat) : list string :=
  map (fun i => nth i ws EmptyString) (filter (fun i => negb (existsb (Nat.eqb i) is)) (seq 0 (length ws))).
(** the linked words; words without a link are linked to the null word *)
Definition word_links (s : sentence) : list (string * string) :=
  map (fun ij => (nth (fst ij) (src s) EmptyString, nth (snd ij) (tgt s) EmptyString)) (links s) ++
  map (fun w => (w, NULL_WORD_STR)) (unlinked (src s) (map fst (links s))) ++ map (fun w => (NULL_WORD_STR, w)) (unlinked (tgt s) (map snd (links s))).
Definition corpus_links (c : list sentence) : list (string * string) := concat (map word_links c).
Definition pair_count (l : list (string * string)) (s t : string) : nat := length (filter (fun p => String.eqb (fst p) s && String.eqb (snd p) t) l).
Definition source_count (l : list (string * string)) (s : string) : nat := length (filter (fun p => String.eqb (fst p) s) l).
Definition target_count (l : list (string * string)) (t : string) : nat := length (filter (fun p => String.eqb (snd p) t) l).
(** a word of the corpus, or one of the two reserved ones *)
Definition known (lines : list (list string)) (w : string) : Prop := In w [NULL_WORD_STR; END_OF_LINE_STR] \/ In w (concat lines).
(** what a word costs, given the probabilities of its partners *)
Definition word_cost (p : string -> R) (partners : list string) (c : R) : Prop :=
  (exists w, In w partners /\ (0 < p w)%R /\ (forall w', In w' partners -> (p w' <= p w)%R) /\ c = (- (ln (p w) / ln 10))%R) \/
  ((forall w, In w partners -> (p w <= 0)%R) /\ c = 99%R).
Definition rsum (l : list R) : R := fold_right Rplus 0%R l.
