(** C104: features of source paths, of other letters and of reordering. *)
From Coq Require Import List Arith ZArith Bool Lia Permutation.
From Verif Require Import Opt CfgSpec Srcpath SrcpathSpec SrcpathProofs.
Import ListNotations.
Local Open Scope nat_scope.

(** The source path features have every word of the source text of a derivation, as often as it occurs. *)
Theorem C104_words : forall d s, source d s -> exists res fired, source_path d = Some (res, fired) /\ Permutation (filter is_SU fired) (map SU s).
Proof. exact unigrams. Qed.
Print Assumptions C104_words.
(** If variables come first on the source sides or stand for single words, they are exactly the words and the pairs of neighbours. *)
Theorem C104_pairs : forall d, front d -> forall s, source d s ->
  exists fired, source_path d = Some (last s 0%Z, fired) /\ Permutation fired (map SU s ++ map (fun p => SB (fst p) (snd p)) (neighbours s)).
Proof. exact bigrams. Qed.
Print Assumptions C104_pairs.
(** Finding: what a variable stands for is remembered by its last word only: with longer texts after another symbol the pairs are not those
    of neighbours.  Two derivations of the same source text get different features. *)
Theorem C104_pairs_refuted : exists d d' s fired fired', source d s /\ source d' s /\ source_path d = Some (9%Z, fired) /\ source_path d' = Some (9%Z, fired') /\
  In (SB 7 9) fired /\ ~ In (7, 9)%Z (neighbours s) /\ ~ In (SB 7 8) fired /\ In (7, 8)%Z (neighbours s) /\ Permutation fired' (map SU s ++ map (fun p => SB (fst p) (snd p)) (neighbours s)).
Proof.
  exists (Node [7; -1] [] [Node [8; 9] [] []])%Z, (Node [7; 8; 9] [] [])%Z, [7; 8; 9]%Z. do 2 eexists.
  assert (S1 : source (Node [8; 9] [] [])%Z [8; 9]%Z). { apply (src_node _ _ _ []); [discriminate|constructor|]. do 2 (apply fills_word; [lia|]). constructor. }
  assert (S2 : source (Node [7; 8; 9] [] [])%Z [7; 8; 9]%Z). { apply (src_node _ _ _ []); [discriminate|constructor|]. do 3 (apply fills_word; [lia|]). constructor. }
  split; [|split; [exact S2|]].
  - apply (src_node _ _ _ [[8; 9]%Z]); [discriminate|constructor; [exact S1|constructor]|]. apply fills_word; [lia|]. apply (fills_var _ [] [8; 9]%Z [] []); [lia|constructor].
  - split; [reflexivity|]. split; [reflexivity|]. cbn. repeat split; try (intuition congruence; fail).
    rewrite (perm_swap (SU 9) (SB 7 8)), (perm_swap (SU 8)). do 2 constructor. constructor. reflexivity.
Qed.
Print Assumptions C104_pairs_refuted.

(** NonLatinCount is the number of words of the target text with a byte which is not ASCII, for any number of derivations one after the
    other, if every word begins its first such character properly. *)
Theorem C104_letters : forall text, (forall w, readable (text w)) -> forall ds ss, Forall2 target ds ss ->
  all_non_latin text ds [] = Some (map (fun s => length (filter (fun w => not_ascii (text w)) s)) ss).
Proof. exact all_letters. Qed.
Print Assumptions C104_letters.
(** Finding: a word in which a byte from 128 to 191 follows ASCII letters or begins the word never ends the loop. *)
Theorem C104_endless_refuted : forall text f w a b r, text w = a ++ b :: r -> Forall (fun x => x < 128) a -> 128 <= b < 192 -> (0 < w)%Z -> non_latin text (Node f [w] []) [] = None.
Proof.
  intros text f w a b r T A B W. cbn. rewrite (proj2 (Z.ltb_lt 0 w) W). rewrite T, (endless a b r A B). reflexivity.
Qed.
Print Assumptions C104_endless_refuted.

(** The reordering features of a rule with two variables tell whether the target side has them in the order of the source side, together
    and by the size of the span, for spans of up to 15 words. *)
Theorem C104_reorder : forall bin e i j m n, vars e = [m; n] -> (0 <= i)%Z -> (i < j <= i + 15)%Z ->
  Cmr bin false 2 e i j = Some (if m =? 0 then [Mono; MonoSpan (bin (Z.to_nat (j - i)))] else [Reorder; ReorderSpan (bin (Z.to_nat (j - i)))]).
Proof. exact cmr_ok. Qed.
Print Assumptions C104_reorder.
(** Other rules and rules for S have none. *)
Theorem C104_none : forall bin isS arity e i j, arity <> 2 \/ isS = true -> Cmr bin isS arity e i j = Some [].
Proof. intros bin isS arity e i j H. unfold Cmr. destruct (Nat.eqb_spec arity 2) as [->|N]; [|reflexivity]. destruct H as [H| ->]; [congruence|reflexivity]. Qed.
Print Assumptions C104_none.
(** Finding: for longer spans the table is read beyond its end. *)
Theorem C104_span_refuted : forall bin e i j m n, vars e = [m; n] -> (0 <= i)%Z -> (i + 15 < j)%Z -> Cmr bin false 2 e i j = None.
Proof.
  intros bin e i j m n V I J. unfold Cmr. cbn [Nat.eqb negb]. rewrite (proj2 (Z.leb_le 0 i) I), (proj2 (Z.ltb_lt i j)) by lia. cbn [andb]. rewrite (reordered_first _ _ _ V). cbn [Opt.bind].
  destruct (nth_error (fids bin) (Z.to_nat (j - i))) as [o|] eqn:E; [|reflexivity]. assert (nth_error (fids bin) (Z.to_nat (j - i)) <> None) as L by congruence. apply nth_error_Some in L. cbn in L. lia.
Qed.
Print Assumptions C104_span_refuted.

(** ** Examples *)
Definition d_ex : deriv := (Node [-1; 5; -1] [-1; 20; 0] [Node [7; 8] [21] []; Node [9] [22; 21] []])%Z.
Example C104_front_ex : front d_ex /\ source d_ex [7; 8; 5; 9]%Z /\ target d_ex [22; 21; 20; 21]%Z.
Proof.
  assert (S1 : source (Node [7; 8] [21] [])%Z [7; 8]%Z). { apply (src_node _ _ _ []); [discriminate|constructor|]. do 2 (apply fills_word; [lia|]). constructor. }
  assert (S2 : source (Node [9] [22; 21] [])%Z [9]%Z). { apply (src_node _ _ _ []); [discriminate|constructor|]. apply fills_word; [lia|]. constructor. }
  repeat split.
  - apply front_var; [lia|apply front_word; [lia|constructor|constructor]|constructor; [apply front_word; [lia|constructor|constructor]|constructor]|constructor; [exists 9%Z; exact S2|constructor]].
  - apply (src_node _ _ _ [[7; 8]; [9]]%Z); [discriminate|constructor; [exact S1|constructor; [exact S2|constructor]]|].
    apply (fills_var _ [5; -1]%Z [7; 8]%Z [[9]]%Z [5; 9]%Z); [lia|]. apply fills_word; [lia|]. apply (fills_var _ [] [9]%Z [] []); [lia|constructor].
  - apply (trg_node _ _ _ [[21]; [22; 21]]%Z); [|cbn; intros [|[|m]] L; auto; lia|change (NoDup [1; 0]); apply NoDup_cons; [cbn; intros [X|[]]; discriminate X|apply NoDup_cons; [cbn; tauto|apply NoDup_nil]]|reflexivity].
    constructor; [|constructor; [|constructor]]; (apply (trg_node _ _ _ []); [constructor|cbn; intros; lia|apply NoDup_nil|reflexivity]).
Qed.
Example C104_ex : source_path d_ex = Some (9%Z, [SU 5; SB 8 5; SB 5 9; SU 7; SU 8; SB 7 8; SU 9])%Z /\
  all_non_latin (fun w => if (w =? 21)%Z then [65; 195; 169] else [66; 67]) [d_ex; d_ex] [] = Some [2; 2] /\
  Cmr Z.of_nat false 2 [20; -1; 0]%Z 3 7 = Some [Reorder; ReorderSpan 4] /\ vars [20; -1; 0]%Z = [1; 0].
Proof. repeat split; reflexivity. Qed.
Example C104_readable_ex : forall w : Z, readable (if (w =? 21)%Z then [65; 195; 169] else [66; 67]).
Proof. intros w. destruct (w =? 21)%Z; repeat (apply r_ascii; [lia|]); [apply r_lead; split; lia|constructor]. Qed.
