(** C75, C76: phrase-based translation. *)
From Coq Require Import List Arith ZArith Bool.
From Verif Require Import Opt HG Deriv TopoSpec Pb PbSpec PbRefProofs.
Import ListNotations.
Local Open Scope nat_scope.

(** For a sentence and a phrase table without empty source sides the decoder ends. It finds nothing only if there is no way to cover the sentence with phrases of the table within the
    distortion limit; otherwise the forest is well-formed, its derivations say the ways to cover the sentence, each of them and nothing else, and none of them twice if the table has no
    entry twice. *)
Theorem C75_sentence : forall (R : Type) (D : nat) (kNT kGOAL : Z) (table : list (list Z * R)) ws, (forall us r, In (us, r) table -> us <> []) -> ws <> [] ->
  exists N res, (forall fuel, N <= fuel -> Translate D kNT kGOAL (sentence ws) (LoadTextPhrasetable table) fuel = Some res) /\ all_ways (sentence ws) table D res /\ (NoDup table -> once res).
Proof. exact @sentence_ok. Qed.
Print Assumptions C75_sentence.

Definition some_table : list (list Z * nat) := [([1%Z], 10); ([1%Z], 11); ([2%Z], 20); ([1%Z; 2%Z], 30); ([3%Z], 40); ([2%Z; 3%Z], 50)].
Example C75_ex : (forall us r, In (us, r) some_table -> us <> []) /\ NoDup some_table /\
  match Translate 1 7%Z 8%Z (sentence [1%Z; 2%Z; 3%Z]) (LoadTextPhrasetable some_table) 100 with
  | Some (Some g) => goal_says g =
      [[(0, 1, 10); (1, 3, 50)]; [(0, 1, 11); (1, 3, 50)]; [(0, 2, 30); (2, 3, 40)]; [(0, 1, 10); (1, 2, 20); (2, 3, 40)]; [(0, 1, 11); (1, 2, 20); (2, 3, 40)];
       [(1, 2, 20); (0, 1, 10); (2, 3, 40)]; [(1, 2, 20); (0, 1, 11); (2, 3, 40)]; [(1, 3, 50); (0, 1, 10)]; [(1, 3, 50); (0, 1, 11)];
       [(0, 1, 10); (2, 3, 40); (1, 2, 20)]; [(0, 1, 11); (2, 3, 40); (1, 2, 20)]]
  | _ => False
  end /\
  Translate 1 7%Z 8%Z (sentence [1%Z; 4%Z]) (LoadTextPhrasetable some_table) 100 = Some None.
Proof.
  split; [intros us r I; cbn in I; repeat (destruct I as [I|I]; [injection I as <- _; discriminate|]); destruct I|]. split; [repeat constructor; cbn; intuition congruence|]. split; vm_compute; reflexivity.
Qed.

(** For any lattice the decoder ends, finds a forest if and only if there is a way to cover the lattice, and the derivations say such ways only. *)
Theorem C75_lattice : forall (R : Type) (D : nat) (kNT kGOAL : Z) (table : list (list Z * R)) lattice, (forall us r, In (us, r) table -> us <> []) -> forward lattice -> lattice <> [] ->
  exists N res, (forall fuel, N <= fuel -> Translate D kNT kGOAL lattice (LoadTextPhrasetable table) fuel = Some res) /\
    match res with
    | None => forall ps, ~ route lattice table D (repeat true (length lattice)) ps
    | Some g => wf_hg g /\ topo g /\ (exists t, derives g (length (nodes g) - 1) t) /\ forall t, derives g (length (nodes g) - 1) t -> route lattice table D (repeat true (length lattice)) (said g t)
    end.
Proof. exact @lattice_ok. Qed.
Print Assumptions C75_lattice.

Example C75_lattice_ex : match Translate 1 7%Z 8%Z [[(1%Z, 1); (3%Z, 2)]; [(3%Z, 1)]] (LoadTextPhrasetable some_table) 100 with
  | Some (Some g) => goal_says g = [[(0, 2, 40)]; [(0, 1, 10); (1, 2, 40)]; [(0, 1, 11); (1, 2, 40)]; [(1, 2, 40); (0, 1, 10)]; [(1, 2, 40); (0, 1, 11)]]
  | _ => False
  end.
Proof. vm_compute. reflexivity. Qed.

(** Finding: on a lattice the decoder loses translations. A phrase applied to the empty coverage makes its own node the node of the new coverage (phrasebased_translator.cc 160-162) whether or
    not that coverage has one already, so of two words on parallel arcs from the first position - each of them translated by the table - only the one applied last is in the forest. *)
Theorem C75_lattice_refuted : exists (lattice : list (list (Z * nat))) (table : list (list Z * nat)) N g ps,
  forward lattice /\ (forall us r, In (us, r) table -> us <> []) /\ NoDup table /\ (forall fuel, N <= fuel -> Translate 2 7%Z 8%Z lattice (LoadTextPhrasetable table) fuel = Some (Some g)) /\
  route lattice table 2 (repeat true (length lattice)) ps /\ ~ exists t, derives g (length (nodes g) - 1) t /\ said g t = ps.
Proof. exact lattice_refuted. Qed.
Print Assumptions C75_lattice_refuted.

(** Sentences one after the other, with words passed through or not: each of them is translated as if it were the only one, words without a translation of their own standing for
    themselves, provided that no phrase of the table starts with such a word. *)
Theorem C76_lines : forall (R : Type) (pass : Z -> R) (D : nat) (kNT kGOAL : Z) (passing : bool) (table : list (list Z * R)) wss,
  (forall us r, In (us, r) table -> us <> []) -> Forall (fun ws => ws <> []) wss ->
  (passing = true -> forall ws w, In ws wss -> In w ws -> (forall r, ~ In ([w], r) table) -> forall us r, ~ In (w :: us, r) table) ->
  exists N ress, (forall fuel, N <= fuel -> TranslateLines pass D kNT kGOAL passing (map sentence wss) (LoadTextPhrasetable table) fuel = Some ress) /\
    Forall2 (fun ws res => all_ways (sentence ws) (if passing then with_words pass table ws else table) D res /\ (NoDup table -> once res)) wss ress.
Proof. exact @lines_ok. Qed.
Print Assumptions C76_lines.

Definition spoken (gs : option (list (option (hg (plabel nat))))) : option (list (list (list (nat * nat * nat)))) :=
  match gs with Some l => Some (map (fun o => match o with Some g => goal_says g | None => [] end) l) | None => None end.
Example C76_ex : (forall ws w, In ws [[1%Z; 4%Z]; [4%Z; 3%Z]] -> In w ws -> (forall r, ~ In ([w], r) some_table) -> forall us r, ~ In (w :: us, r) some_table) /\
  spoken (TranslateLines (fun w => 90 + Z.to_nat w) 0 7%Z 8%Z true (map sentence [[1%Z; 4%Z]; [4%Z; 3%Z]]) (LoadTextPhrasetable some_table) 100) =
    Some [[[(0, 1, 10); (1, 2, 94)]; [(0, 1, 11); (1, 2, 94)]]; [[(0, 1, 94); (1, 2, 40)]]] /\
  spoken (TranslateLines (fun w => 90 + Z.to_nat w) 0 7%Z 8%Z false (map sentence [[1%Z; 4%Z]; [1%Z; 3%Z]]) (LoadTextPhrasetable some_table) 100) =
    Some [[]; [[(0, 1, 10); (1, 2, 40)]; [(0, 1, 11); (1, 2, 40)]]].
Proof.
  split; [|split; vm_compute; reflexivity]. intros ws w I J NT us r K. cbn in K. repeat (destruct K as [K|K]; [injection K as <- _ _|]); try destruct K.
  - apply (NT 10). cbn. tauto.
  - apply (NT 10). cbn. tauto.
  - apply (NT 20). cbn. tauto.
  - apply (NT 10). cbn. tauto.
  - apply (NT 40). cbn. tauto.
  - apply (NT 20). cbn. tauto.
Qed.

(** Finding: with pass-through rules a sentence changes how later ones are translated. ClearPassThroughTranslations (phrasetable_fst.cc 97-101) erases the whole branch of a word passed
    through, and with it every longer phrase of the table that starts with this word: translating the same sentence again, the phrase is gone. *)
Theorem C76_lines_refuted : exists (pass : Z -> nat) (table : list (list Z * nat)) ws N res g ps,
  (forall us r, In (us, r) table -> us <> []) /\ NoDup table /\ ws <> [] /\ (forall fuel, N <= fuel -> TranslateLines pass 2 7%Z 8%Z true [sentence ws; sentence ws] (LoadTextPhrasetable table) fuel = Some [res; Some g]) /\
  all_ways (sentence ws) (with_words pass table ws) 2 res /\ route (sentence ws) (with_words pass table ws) 2 (repeat true (length ws)) ps /\ ~ exists t, derives g (length (nodes g) - 1) t /\ said g t = ps.
Proof. exact pass_refuted. Qed.
Print Assumptions C76_lines_refuted.
