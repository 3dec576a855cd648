(** What an ARPA file says, read as text: words are strings, the scores are those of the
    lines of the file. *)
From Coq Require Import String List ZArith Bool.
Import ListNotations.
From Verif Require Import Lm Arpa.
Open Scope Z_scope.

(** <UNK> is another spelling of <unk>. *)
Definition canon (s : string) : string := if String.eqb s "<UNK>" then "<unk>"%string else s.

Section Spec.
Variable a : arpa.
(** The log probability of unknown words if the file has no line for them. *)
Variable unk_prob : Z.

Definition is_line (x : string) (l : fl * string * option fl) : bool := String.eqb (canon (snd (fst l))) x.
Definition listed (s : string) : bool := existsb (is_line (canon s)) (one a).
(** Words without a line are unknown. *)
Definition norm (s : string) : string := if listed s then canon s else "<unk>"%string.

(** Log probabilities are not positive; a missing back-off weight is 0. *)
Definition capped (p : fl) : Z := Z.min 0 (val p).
Definition weight (b : option fl) : Z := match b with Some x => val x | None => 0 end.

(** The first line of a word counts, for <unk> the last. *)
Definition unigram_line (x : string) : option (fl * string * option fl) :=
  let ls := filter (is_line x) (one a) in
  hd_error (if String.eqb x "<unk>" then rev ls else ls).
(** The line of an n-gram of at least two words, newest word first. *)
Definition ngram_line (g : list string) : option line :=
  List.find (fun l => if list_eq_dec string_dec (map canon (l_words l)) (rev g) then true else false) (nth (length g - 2) (more a) []).

Definition file_prob1 (w : string) : Z := match unigram_line w with Some (p, _, _) => capped p | None => unk_prob end.
Definition file_bow (g : list string) : Z :=
  match g with
  | [] => 0
  | [w] => match unigram_line w with Some (_, _, b) => weight b | None => 0 end
  | _ => match ngram_line g with Some l => weight (l_back l) | None => 0 end
  end.
(** Katz back-off from the lines of the file, looking at [n] words of the history [h]. *)
Fixpoint file_katz (n : nat) (w : string) (h : list string) : Z :=
  match n with
  | O => file_prob1 w
  | S n' =>
    if Nat.ltb (length h) n then file_katz n' w h
    else match ngram_line (w :: firstn n h) with
         | Some l => capped (l_prob l)
         | None => file_bow (firstn n h) + file_katz n' w h
         end
  end.
Definition file_logprob (w : string) (h : list string) : Z := file_katz (length (more a)) (norm w) (map norm h).
Fixpoint file_score (h : list string) (ws : list string) : Z :=
  match ws with [] => 0 | w :: ws' => file_logprob w h + file_score (w :: h) ws' end.

(** An n-gram line of the file. *)
Definition line_of (n : nat) (l : line) : Prop := (2 <= n)%nat /\ In l (nth (n - 2) (more a) []).

(** Unknown words have a line, or no n-gram mentions them. *)
Definition unk_ok : Prop :=
  listed "<unk>" = true \/ forall n l s, line_of n l -> In s (l_words l) -> canon s <> "<unk>"%string.
(** The newest word of a listed n-gram has no positive Katz score after any part of its
    history. *)
Definition nonpositive : Prop :=
  forall n l w h k, line_of n l -> rev (map canon (l_words l)) = w :: h -> file_katz k w h <= 0.
(** The n-grams without their newest and without their oldest words are listed. *)
Definition closed : Prop :=
  forall n l, (3 <= n)%nat -> line_of n l ->
  (exists l', line_of (n - 1) l' /\ map canon (l_words l') = tl (map canon (l_words l)))
  /\ (exists l', line_of (n - 1) l' /\ map canon (l_words l') = removelast (map canon (l_words l))).

(** The checks on the lines. *)
Definition line_fine (no_positive : bool) (n : nat) (l : line) : Prop :=
  length (l_words l) = n
  /\ (no_positive = true -> val (l_prob l) <= 0)
  /\ (forall s, In s (l_words l) -> listed s = true \/ canon s = "<unk>"%string)
  /\ (n = S (length (more a)) -> weight (l_back l) = 0).
Definition unigram_fine (no_positive : bool) (l : fl * string * option fl) : Prop := no_positive = true -> val (fst (fst l)) <= 0.
End Spec.

(** The order, <unk> and the sentence markers are as the configuration demands. *)
Definition ok_config (c : config) (a : arpa) : Prop :=
  (2 <= S (length (more a)) <= c_max c)%nat /\ (c_unk c = true -> listed a "<unk>" = true) /\ (c_marker c = true -> listed a "<s>" = true /\ listed a "</s>" = true).
