(** Spans of extracted rules (extractor/rule_extractor_helper.cc).  [None] would be an
    access outside an array, or a loop that does not end. *)
From Coq Require Import List ZArith Lia.
From Verif Require Import Opt Fix FixSpec FixProofs.
Import ListNotations.
Open Scope Z_scope.

(** C34.  The search, started as every caller starts it (no target span given), ends
    without an access out of bounds.  When it reports success, no link leaves the pair of
    spans, the source span covers the phrase, both lie inside the sentences, the target
    side is not wider than allowed, the source side is extended only where allowed and by
    gaps that are long enough, on at most max_new_x sides.  A phrase without link is
    never reported. *)
Theorem C34_closed : forall o links ns nt sp sl sh bl0 bh0,
  links_within links (Z.of_nat ns) (Z.of_nat nt) -> GetLinksSpans ns nt links = Some sp ->
  0 <= sl <= sh -> sh <= Z.of_nat ns ->
  exists r, FindFixPoint o sp (Z.of_nat ns) (Z.of_nat nt) sl sh (-1) (-1) bl0 bh0 = Some r /\
    (found r = true ->
       closed links (r_bl r) (r_bh r) (r_tl r) (r_th r) /\
       (exists s t, In (s, t) links /\ sl <= s < sh) /\
       0 <= r_bl r <= sl /\ sh <= r_bh r <= Z.of_nat ns /\ 0 <= r_tl r < r_th r /\ r_th r <= Z.of_nat nt /\
       r_th r - r_tl r <= max_rule_span o /\
       (r_bl r < sl -> allow_low_x o = true /\ min_source_gap_size o <= sl - r_bl r) /\
       (sh < r_bh r -> allow_high_x o = true /\ min_source_gap_size o <= r_bh r - sh) /\
       (0 < sides sl sh (r_bl r) (r_bh r) ->
          sides sl sh (r_bl r) (r_bh r) <= max_new_x o /\ r_bh r - r_bl r <= max_rule_span o)).
Proof. exact fix_closed. Qed.
Print Assumptions C34_closed.
(** The table of spans is always built. *)
Theorem C34_spans : forall links ns nt, links_within links (Z.of_nat ns) (Z.of_nat nt) -> exists sp, GetLinksSpans ns nt links = Some sp.
Proof. exact fix_spans. Qed.
Print Assumptions C34_spans.
(** With gaps of size one the spans are the least closed pair that covers the phrase. *)
Theorem C34_least : forall o links ns nt sp sl sh bl0 bh0 r,
  links_within links (Z.of_nat ns) (Z.of_nat nt) -> GetLinksSpans ns nt links = Some sp ->
  0 <= sl <= sh -> sh <= Z.of_nat ns -> min_source_gap_size o <= 1 ->
  FindFixPoint o sp (Z.of_nat ns) (Z.of_nat nt) sl sh (-1) (-1) bl0 bh0 = Some r -> found r = true ->
  forall sl' sh' tl' th', closed links sl' sh' tl' th' -> sl' <= sl -> sh <= sh' ->
    sl' <= r_bl r /\ r_bh r <= sh' /\ tl' <= r_tl r /\ r_th r <= th'.
Proof. exact fix_least. Qed.
Print Assumptions C34_least.
(** And the search succeeds whenever some closed pair meets the limits. *)
Theorem C34_complete : forall o links ns nt sp sl sh bl0 bh0 r,
  links_within links (Z.of_nat ns) (Z.of_nat nt) -> GetLinksSpans ns nt links = Some sp ->
  0 <= sl <= sh -> sh <= Z.of_nat ns -> min_source_gap_size o <= 1 -> allow_arbitrary_expansion o = true ->
  (exists s t, In (s, t) links /\ sl <= s < sh) ->
  FindFixPoint o sp (Z.of_nat ns) (Z.of_nat nt) sl sh (-1) (-1) bl0 bh0 = Some r ->
  forall sl' sh' tl' th', closed links sl' sh' tl' th' -> 0 <= sl' <= sl -> sh <= sh' <= Z.of_nat ns ->
    sh' - sl' <= max_rule_span o -> th' - tl' <= max_rule_span o -> sides sl sh sl' sh' <= max_new_x o ->
    (sl' < sl -> allow_low_x o = true) -> (sh < sh' -> allow_high_x o = true) -> found r = true.
Proof. exact fix_complete. Qed.
Print Assumptions C34_complete.
Example C34_ex :
  let links := [(0,1);(1,0);(2,3);(3,2);(1,1);(2,1);(4,4)] in
  let o := {| max_rule_span := 10; min_source_gap_size := 1; min_target_gap_size := 1; max_new_x := 2;
              allow_low_x := true; allow_high_x := true; allow_arbitrary_expansion := true |} in
  links_within links 5 5 /\ closed links 0 4 0 4 /\ ~ closed links 0 3 0 3 /\
  exists sp, GetLinksSpans 5 5 links = Some sp /\
    FindFixPoint o sp 5 5 1 2 (-1) (-1) 0 0 = Some {| found := true; r_tl := 0; r_th := 4; r_bl := 0; r_bh := 4 |}.
Proof.
  split; [|split; [|split]].
  - intros s t L. cbn in L. repeat (destruct L as [L|L]; [injection L as <- <-; lia|]). destruct L.
  - intros s t L. cbn in L. repeat (destruct L as [L|L]; [injection L as <- <-; lia|]). destruct L.
  - intros C. destruct (C 2 3) as [X _]; [cbn; auto|]. lia.
  - eexists. split; [vm_compute; reflexivity|]. vm_compute. reflexivity.
Qed.

(** C35.  Every gap gets a number below the number of gaps, without access out of bounds. *)
Theorem C35_safe : forall gaps, exists ord, GetGapOrder gaps = Some ord /\ length ord = length gaps /\
  Forall (fun r => 0 <= r < Z.of_nat (length gaps)) ord.
Proof. exact fix_order_safe. Qed.
Print Assumptions C35_safe.
(** With two gaps (the decoder's rules have at most two nonterminals) it is the rank. *)
Theorem C35_two : forall a b, before a b \/ before b a ->
  exists r0 r1, GetGapOrder [a; b] = Some [Z.of_nat r0; Z.of_nat r1] /\ rank_of [a; b] 0 r0 /\ rank_of [a; b] 1 r1.
Proof. exact order_two. Qed.
Print Assumptions C35_two.
(** With three it need not be: the three gaps below all get number 1. *)
Theorem C35_rank_refuted : exists gaps ord, NoDup gaps /\ GetGapOrder gaps = Some ord /\
  ~ (forall i r, (i < length gaps)%nat -> rank_of gaps i r -> nth_error ord i = Some (Z.of_nat r)).
Proof. exact fix_order_refuted. Qed.
Print Assumptions C35_rank_refuted.
Example C35_ex : before (0, 1) (3, 4) /\ GetGapOrder [(3, 4); (0, 1)] = Some [1; 0] /\
  GetGapOrder [(9, 10); (0, 1); (3, 4)] = Some [1; 1; 1].
Proof. repeat split; try (vm_compute; reflexivity). left. reflexivity. Qed.
