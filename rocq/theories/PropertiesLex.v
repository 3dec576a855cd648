(** C98: lexical translation probabilities of the extractor. *)
From Coq Require Import String List Arith Reals Lra Lia.
From Verif Require Import Lex LexSpec LexProofs.
Import ListNotations.
Local Open Scope nat_scope.

(** For a corpus with links in range the table is built, and for words of the corpus it gives the relative frequencies of the links;
    words without a link count as linked to the null word.  For other words it gives -1. *)
Theorem C98_table : forall c, Forall in_range c ->
  let sd := CreateDataArray (map src c) in let td := CreateDataArray (map tgt c) in
  exists tp, TranslationTable sd td (map links c) = Some tp /\ forall s t,
  (known (map src c) s /\ known (map tgt c) t ->
     let n := pair_count (corpus_links c) s t in
     (n = 0 -> GetTargetGivenSourceScore sd td tp s t = 0%R /\ GetSourceGivenTargetScore sd td tp s t = 0%R) /\
     (n <> 0 -> GetTargetGivenSourceScore sd td tp s t = (INR n / INR (source_count (corpus_links c) s))%R /\
                GetSourceGivenTargetScore sd td tp s t = (INR n / INR (target_count (corpus_links c) t))%R)) /\
  (~ known (map src c) s \/ ~ known (map tgt c) t ->
     GetTargetGivenSourceScore sd td tp s t = (-1)%R /\ GetSourceGivenTargetScore sd td tp s t = (-1)%R).
Proof. exact table_ok. Qed.
Print Assumptions C98_table.

(** The probabilities of all words linked anywhere sum to one, for every linked word on the other side. *)
Theorem C98_sums : forall c, Forall in_range c -> exists tp, TranslationTable (CreateDataArray (map src c)) (CreateDataArray (map tgt c)) (map links c) = Some tp /\
  (forall s, In s (map fst (corpus_links c)) ->
     rsum (map (GetTargetGivenSourceScore (CreateDataArray (map src c)) (CreateDataArray (map tgt c)) tp s) (nodup string_dec (map snd (corpus_links c)))) = 1%R) /\
  (forall t, In t (map snd (corpus_links c)) ->
     rsum (map (fun s => GetSourceGivenTargetScore (CreateDataArray (map src c)) (CreateDataArray (map tgt c)) tp s t) (nodup string_dec (map fst (corpus_links c)))) = 1%R).
Proof. exact sums_ok. Qed.
Print Assumptions C98_sums.

(** The features of a phrase pair: every word of one side pays minus the logarithm of its best probability given a word of the other
    side or the null word, and 99 if there is none. *)
Theorem C98_source_given_target : forall table ss ts, exists costs,
  Forall2 (fun s c => word_cost (fun t => table s t) (ts ++ ["__NULL__"%string]) c) ss costs /\ MaxLexSourceGivenTarget table ss ts = rsum costs.
Proof. exact max_lex_source. Qed.
Print Assumptions C98_source_given_target.
Theorem C98_target_given_source : forall table ss ts, exists costs,
  Forall2 (fun t c => word_cost (fun s => table s t) (ss ++ ["__NULL__"%string]) c) ts costs /\ MaxLexTargetGivenSource table ss ts = rsum costs.
Proof. exact max_lex_target. Qed.
Print Assumptions C98_target_given_source.

(** ** Examples *)
Open Scope string_scope.
Definition c_ex : list sentence :=
  [ {| src := ["das"; "haus"]; tgt := ["the"; "house"]; links := [(0, 0); (1, 1)] |};
    {| src := ["das"; "buch"; "ja"]; tgt := ["the"; "book"; "of"]; links := [(0, 0); (1, 1)] |};
    {| src := ["das"]; tgt := ["that"]; links := [(0, 0)] |} ].
Example C98_range_ex : Forall in_range c_ex.
Proof. unfold in_range. repeat constructor; cbn; lia. Qed.
Example C98_links_ex : corpus_links c_ex = [("das", "the"); ("haus", "house"); ("das", "the"); ("buch", "book"); ("ja", "__NULL__"); ("__NULL__", "of"); ("das", "that")].
Proof. reflexivity. Qed.
Example C98_table_ex : exists tp, TranslationTable (CreateDataArray (map src c_ex)) (CreateDataArray (map tgt c_ex)) (map links c_ex) = Some tp /\
  GetTargetGivenSourceScore (CreateDataArray (map src c_ex)) (CreateDataArray (map tgt c_ex)) tp "das" "the" = (2 / 3)%R /\
  GetSourceGivenTargetScore (CreateDataArray (map src c_ex)) (CreateDataArray (map tgt c_ex)) tp "das" "the" = 1%R.
Proof.
  destruct (C98_table c_ex C98_range_ex) as (tp & Q & H). exists tp. split; [exact Q|]. destruct (H "das" "the") as (H1 & _). destruct H1 as (_ & H1); [split; right; cbn; auto|]. destruct H1 as (E1 & E2); [discriminate|].
  rewrite E1, E2. unfold pair_count, source_count, target_count, corpus_links. cbn. split; lra.
Qed.
