(** What an extracted rule is: spans of a sentence pair with gaps, read off the words. *)
From Coq Require Import List ZArith Permutation.
From Verif Require Import RuleEx FixSpec.
Import ListNotations.
Open Scope Z_scope.

(** The words at positions a .. b-1. *)
Definition slice (words : list Z) (a b : Z) : list Z := firstn (Z.to_nat (b - a)) (skipn (Z.to_nat a) words).
(** Gaps that follow each other inside [lo, hi), none empty. *)
Fixpoint ordered (lo hi : Z) (gaps : list (Z * Z)) : Prop :=
  match gaps with [] => lo <= hi | (a, b) :: r => lo <= a /\ a < b /\ ordered b hi r end.
Definition in_gap (gaps : list (Z * Z)) (pos : Z) : Prop := exists a b, In (a, b) gaps /\ a <= pos < b.
(** The symbols of [lo, hi) with a nonterminal in place of every gap (gaps with their numbers). *)
Fixpoint side (words : list Z) (lo hi : Z) (gaps : list (Z * (Z * Z))) : list Z :=
  match gaps with [] => slice words lo hi | (k, (a, b)) :: r => slice words lo a ++ - k :: side words b hi r end.
(** The index, among these symbols, of the word at pos. *)
Fixpoint place (lo : Z) (gaps : list (Z * Z)) (pos : Z) : Z :=
  match gaps with [] => pos - lo | (a, b) :: r => if pos <? a then pos - lo else (a - lo) + 1 + place b r pos end.
Definition numbers (n : nat) : list Z := map Z.of_nat (seq 1 n).
Definition numbered (gaps : list (Z * Z)) : list (Z * (Z * Z)) := combine (numbers (length gaps)) gaps.

(** ** Occurrences of a phrase; nonterminals are negative *)
Fixpoint chunks_of (phrase : list Z) : list (list Z) :=
  match phrase with
  | [] => [[]]
  | s :: r => if 0 <=? s then match chunks_of r with c :: cs => (s :: c) :: cs | [] => [] end else [] :: chunks_of r
  end.
(** [matching]: where the chunks start in the source data, [start]: where the sentence starts. *)
Definition occurs (words : list Z) (start : Z) (phrase matching : list Z) : Prop :=
  length matching = length (chunks_of phrase) /\
  (forall i m c, nth_error matching i = Some m -> nth_error (chunks_of phrase) i = Some c ->
     c <> [] /\ 0 <= m - start /\ slice words (m - start) (m - start + Z.of_nat (length c)) = c) /\
  (forall i m c m', nth_error matching i = Some m -> nth_error (chunks_of phrase) i = Some c -> nth_error matching (S i) = Some m' ->
     m + Z.of_nat (length c) < m').
Definition covered (start : Z) (phrase matching : list Z) (pos : Z) : Prop :=
  exists i m c, nth_error matching i = Some m /\ nth_error (chunks_of phrase) i = Some c /\
    m - start <= pos < m - start + Z.of_nat (length c).

(** ** Rules in a sentence pair: the two spans, the source gaps, and the target gaps in
    their order on the target side, each with the number of its source gap *)
Record instance := { i_sl : Z; i_sh : Z; i_tl : Z; i_th : Z; i_source : list (Z * Z); i_target : list (Z * (Z * Z)) }.
Definition target_gaps (i : instance) : list (Z * Z) := map snd (i_target i).
(** No link leaves the rule, none leaves a pair of gaps, every pair of gaps has a link. *)
Definition consistent (p : sentence) (i : instance) : Prop :=
  0 <= i_sl i /\ i_sh i <= Z.of_nat (length (src p)) /\ 0 <= i_tl i /\ i_th i <= Z.of_nat (length (tgt p)) /\
  closed (links p) (i_sl i) (i_sh i) (i_tl i) (i_th i) /\
  ordered (i_sl i) (i_sh i) (i_source i) /\ ordered (i_tl i) (i_th i) (target_gaps i) /\
  Permutation (map fst (i_target i)) (numbers (length (i_source i))) /\
  (forall k a b c d, In (k, (c, d)) (i_target i) -> nth_error (i_source i) (Z.to_nat (k - 1)) = Some (a, b) ->
     closed (links p) a b c d /\ exists s t, In (s, t) (links p) /\ a <= s < b /\ c <= t < d).
(** The words at both ends of [a, b) have links. *)
Definition tight_source (p : sentence) (a b : Z) : Prop := (exists t, In (a, t) (links p)) /\ (exists t, In (b - 1, t) (links p)).
Definition tight_target (p : sentence) (a b : Z) : Prop := (exists s, In (s, a) (links p)) /\ (exists s, In (s, b - 1) (links p)).
Definition tight (p : sentence) (i : instance) : Prop :=
  tight_source p (i_sl i) (i_sh i) /\ tight_target p (i_tl i) (i_th i) /\
  (forall a b, In (a, b) (i_source i) -> tight_source p a b) /\ (forall a b, In (a, b) (target_gaps i) -> tight_target p a b).
(** The limits given by the options. *)
Definition within_limits (o : ropts) (p : sentence) (i : instance) (e : extract) : Prop :=
  i_th i - i_tl i <= o_span o /\ i_sh i - i_sl i <= o_span o /\
  Z.of_nat (length (i_source i)) <= o_nonterms o /\ Z.of_nat (length (e_source e)) <= o_symbols o /\
  (o_tight o = true -> tight p i).
(** The terminals of the rule are the occurrence; gaps added at the ends are long enough. *)
Definition around (o : ropts) (start : Z) (phrase matching : list Z) (i : instance) : Prop :=
  (forall pos, covered start phrase matching pos <-> i_sl i <= pos < i_sh i /\ ~ in_gap (i_source i) pos) /\
  (forall a b, In (a, b) (i_source i) -> (a = i_sl i \/ b = i_sh i) -> o_gap o <= b - a).
(** The extract is the rule, read off the words; its links are those of its terminals. *)
Definition inside (lo hi : Z) (gaps : list (Z * Z)) (pos : Z) : bool :=
  andb (andb (lo <=? pos) (pos <? hi)) (negb (existsb (fun g => andb (fst g <=? pos) (pos <? snd g)) gaps)).
Definition reads (p : sentence) (i : instance) (e : extract) : Prop :=
  e_source e = side (src p) (i_sl i) (i_sh i) (numbered (i_source i)) /\
  e_target e = side (tgt p) (i_tl i) (i_th i) (i_target i) /\
  e_align e = map (fun l => (place (i_sl i) (i_source i) (fst l), place (i_tl i) (target_gaps i) (snd l)))
                (filter (fun l => inside (i_tl i) (i_th i) (target_gaps i) (snd l)) (links p)).
(** The spans between the chunks. *)
Fixpoint holes (start : Z) (chunks : list (list Z)) (matching : list Z) : list (Z * Z) :=
  match chunks, matching with
  | c :: cs, m :: ((m' :: _) as r) => (m + Z.of_nat (length c) - start, m' - start) :: holes start cs r
  | _, _ => []
  end.
(** Words with links that the options ask for: one at all, one in every chunk. *)
Definition aligned_terminals (o : ropts) (p : sentence) (start : Z) (phrase matching : list Z) : Prop :=
  o_terminal o = true ->
  (exists s t, covered start phrase matching s /\ In (s, t) (links p)) /\
  (o_chunks o = true -> forall i m c, nth_error matching i = Some m -> nth_error (chunks_of phrase) i = Some c ->
     exists s t, m - start <= s < m - start + Z.of_nat (length c) /\ In (s, t) (links p)).
(** A rule whose source side is the occurrence itself. *)
Definition plain (o : ropts) (p : sentence) (start : Z) (phrase matching : list Z) (i : instance) : Prop :=
  consistent p i /\ around o start phrase matching i /\ i_source i = holes start (chunks_of phrase) matching /\
  i_th i - i_tl i <= o_span o /\ (o_tight o = true -> tight p i) /\
  (exists s t, In (s, t) (links p) /\ i_sl i <= s < i_sh i) /\ aligned_terminals o p start phrase matching.
(** Width of the occurrence. *)
Definition fits (o : ropts) (p : sentence) (start : Z) (phrase matching : list Z) : Prop :=
  links_within (links p) (Z.of_nat (length (src p))) (Z.of_nat (length (tgt p))) /\
  occurs (src p) start phrase matching /\ 1 <= o_gap o /\
  Z.of_nat (length phrase) <= o_symbols o /\ Z.of_nat (length matching) - 1 <= o_nonterms o /\
  (forall a b, covered start phrase matching a -> covered start phrase matching b -> b - a < o_span o).
