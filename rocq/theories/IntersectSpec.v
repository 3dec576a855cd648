(** Occurrences of phrases with gaps in a corpus.  A symbol of a phrase is a word (0 or
    more) or a nonterminal (below 0); [wid] gives the id of a word in the corpus. *)
From Coq Require Import List ZArith.
From Verif Require Import Opt PrecompSpec Intersect.
Import ListNotations.
Open Scope Z_scope.

(** Reading the phrase from position p on ends at position e: a word stands for itself, a
    nonterminal for a gap of at least [gap] words; the list has the position where each
    gap ends. *)
Inductive reads (data : list Z) (wid : Z -> Z) (gap : Z) : list Z -> Z -> list Z -> Z -> Prop :=
| reads_nil p : reads data wid gap [] p [] p
| reads_word s r p ps e : 0 <= s -> 0 <= p -> nth_error data (Z.to_nat p) = Some (wid s) ->
    reads data wid gap r (p + 1) ps e -> reads data wid gap (s :: r) p ps e
| reads_gap s r p q ps e : s < 0 -> p + gap <= q -> reads data wid gap r q ps e -> reads data wid gap (s :: r) p (q :: ps) e.

Definition contiguous (phrase : list Z) : Prop := forall s, In s phrase -> 0 <= s.
(** An occurrence, given by the positions where its chunks start: within one sentence,
    and not longer than [span] words if it has gaps. *)
Definition occurrence (lines : list (list Z)) (wid : Z -> Z) (span gap : Z) (phrase ps : list Z) : Prop :=
  exists p rest e, ps = p :: rest /\ reads (text lines) wid gap phrase p rest e /\ same_sentence (text lines) p e /\
    (contiguous phrase \/ e - p <= span).
(** A phrase without the nonterminal at its end, or at its start. *)
Definition trim_front (l : list Z) : list Z := match l with s :: r => if s <? 0 then r else l | [] => [] end.
Definition trim_back (l : list Z) : list Z := rev (trim_front (rev l)).
(** No two nonterminals in a row. *)
Definition spaced (l : list Z) : Prop := forall l1 a b l2, l = l1 ++ a :: b :: l2 -> 0 <= a \/ 0 <= b.
(** The list has every occurrence of the phrase once. *)
Definition all_occurrences (lines : list (list Z)) (wid : Z -> Z) (span gap : Z) (phrase : list Z) (occs : list (list Z)) : Prop :=
  NoDup occs /\ forall ps, In ps occs <-> occurrence lines wid span gap phrase ps.
(** The occurrences a location stands for: groups of consecutive entries of the list of
    matchings, or the suffixes in a range of the suffix array. *)
Definition denotes (sa : list Z) (l : location) (occs : list (list Z)) : Prop :=
  match matchings l with
  | Some ms => 0 < num_subpatterns l /\ ms = concat occs /\ Forall (fun o => size o = num_subpatterns l) occs
  | None => num_subpatterns l = 0 /\ 0 <= sa_low l <= sa_high l /\ sa_high l <= size sa /\
      occs = map (fun p => [p]) (firstn (Z.to_nat (sa_high l - sa_low l)) (skipn (Z.to_nat (sa_low l)) sa))
  end.
