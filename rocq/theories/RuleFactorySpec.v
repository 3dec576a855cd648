(** The phrases of an input sentence that rules are wanted for. *)
From Coq Require Import List ZArith.
From Verif Require Import Opt IntersectSpec.
Import ListNotations.
Open Scope Z_scope.

Definition negs (l : list Z) : list Z := filter (fun s => s <? 0) l.
(** The first nonterminal is -1, the second -2 and so on. *)
Definition numbered (l : list Z) : Prop := forall l1 x l2, l = l1 ++ x :: l2 -> x < 0 -> x = - (size (negs l1) + 1).
(** The phrase can be read off the sentence, with gaps of at least [gap] words, and is
    within the limits: symbols, nonterminals, and at most [span] + 1 words from its first
    word to its last. *)
Definition input_phrase (words : list Z) (span gap nonterms symbols : Z) (phrase : list Z) : Prop :=
  phrase <> [] /\ 0 <= hd 0 phrase /\ 0 <= last phrase 0 /\ spaced phrase /\ numbered phrase /\
  size phrase <= symbols /\ size (negs phrase) <= nonterms /\
  exists p ps e, reads words (fun w => w) gap phrase p ps e /\ e - p <= span + 1.
