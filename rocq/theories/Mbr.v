(** Model of minimum Bayes risk reranking of k-best lists (mteval/mbr_kbest.cc).
    Simplified: a line is already split into its sentence id (0: the empty string), its words
    and its score (scaled and with the offset of its file); the log probabilities are
    reals; std::sort is left open. *)
From Coq Require Import Reals List Arith Bool.
Import ListNotations.

(** * Reading (mbr_kbest.cc:54-103) *)
Section Read.
Variable S : Type.
Variable s0 : S.                                  (* prob_t() *)
Notation entry := (list nat * S)%type.
Notation line := (nat * (list nat * S))%type.

(** The static variables, the files (what is left of them) and the id given back *)
Record state := State { cache_id : nat; cache_pair : list entry; rfs : list (list line); sent_id : nat }.
(** mbr_kbest.cc:61 *)
Definition start (files : list (list line)) : state := State 0 (map (fun _ => ([], s0)) files) files 0.

(** mbr_kbest.cc:74-95: the lines of one file. Result: the list, cur_id, cache_id, sent_id, the
    entry put into the cache, the lines left *)
Fixpoint read_file (ls : list line) (cur cid sent : nat) (l : list entry) : list entry * nat * nat * nat * option entry * list line :=
  match ls with
  | [] => (l, cur, cid, sent, None, [])
  | (i, e) :: ls' =>
    let cur' := if cur =? 0 then i else cur in
    if cur' =? i then read_file ls' cur' i cur' (l ++ [e])
    else (l, cur', i, sent, Some e, ls')
  end.
(** mbr_kbest.cc:73-96: all files, with their places in the cache *)
Fixpoint read_files (fs : list (list line)) (cs : list entry) (cur cid sent : nat) (l : list entry) : list entry * state :=
  match fs with
  | [] => (l, State cid [] [] sent)
  | f :: fs' =>
    match read_file f cur cid sent l with
    | (l', cur', cid', sent', c, f') =>
      match read_files fs' (tl cs) cur' cid' sent' l' with
      | (l'', State cid'' cs'' fs'' sent'') =>
        (l'', State cid'' (match c with Some e => e | None => hd ([], s0) cs end :: cs'') (f' :: fs'') sent'')
      end
    end
  end.
(** mbr_kbest.cc:54-103 ReadKBestList, without the final sort; it gives back whether the list
    is not empty *)
Definition ReadKBestList (st : state) : list entry * state :=
  match cache_pair st with
  | (_ :: _, _) :: _ => read_files (rfs st) (map (fun _ => ([], s0)) (rfs st)) (cache_id st) (cache_id st) (sent_id st) (cache_pair st)
  | _ => read_files (rfs st) (cache_pair st) 0 (cache_id st) (sent_id st) []
  end.
(** mbr_kbest.cc:140: the first n lists, with the sentence ids *)
Fixpoint calls (n : nat) (st : state) : list (nat * list entry) :=
  match n with
  | 0 => []
  | Datatypes.S n' => let (l, st') := ReadKBestList st in (sent_id st', l) :: calls n' st'
  end.
End Read.

(** * Choosing (mbr_kbest.cc:141-189) *)
Local Open Scope R_scope.
Section Choose.
Notation cand := (list nat * R)%type.
Variable score : list nat -> list nat -> R.      (* metric, for a reference and a hypothesis *)
Variable is_loss : bool.                          (* mbr_kbest.cc:111 *)

(** mbr_kbest.cc:163-164 *)
Definition loss (ref hyp : list nat) : R := let l := 1 - score ref hyp in if is_loss then 1 - l else l.
(** mbr_kbest.cc:142-149 *)
Definition joints (l : list cand) : list R := match l with [] => [] | (_, m) :: _ => map (fun c => exp (snd c - m)) l end.
Definition marginal (l : list cand) : R := fold_left Rplus (joints l) 0.
(** mbr_kbest.cc:165 *)
Definition posterior (l : list cand) (j : nat) : R := nth j (joints l) 0 / marginal l.

(** larger than mbr_loss, which is numeric_limits::max() at first (None) *)
Definition above (x : R) (b : option R) : bool := match b with None => false | Some y => if Rlt_dec y x then true else false end.
Definition below (x : R) (b : option R) : bool := match b with None => true | Some y => if Rlt_dec x y then true else false end.
(** mbr_kbest.cc:158-169: from candidate j *)
Fixpoint risk_from (out : bool) (post : nat -> R) (i : nat) (ref : list nat) (j : nat) (l : list cand) (acc : R) (b : option R) : R :=
  match l with
  | [] => acc
  | c :: l' =>
    if (i =? j)%nat then risk_from out post i ref (S j) l' acc b
    else
      let acc' := acc + loss ref (fst c) * post j in
      if negb out && above acc' b then acc' else risk_from out post i ref (S j) l' acc' b
  end.
(** mbr_kbest.cc:153-175: from candidate i; the scores, mbr_loss and mbr_idx *)
Fixpoint choose_from (out : bool) (all : list cand) (i : nat) (l : list cand) (b : option R) (idx : option nat) : list R * option R * option nat :=
  match l with
  | [] => ([], b, idx)
  | c :: l' =>
    let wl := risk_from out (posterior all) i (fst c) 0 all 0 b in
    let (b', idx') := if below wl b then (Some wl, Some i) else (b, idx) in
    match choose_from out all (S i) l' b' idx' with (scores, b'', idx'') => (wl :: scores, b'', idx'') end
  end.
Definition choose (out : bool) (l : list cand) : list R * option R * option nat := choose_from out l 0 l None None.
(** mbr_kbest.cc:187: the translation printed *)
Definition output (l : list cand) : option (list nat) :=
  match choose false l with (_, _, Some i) => option_map fst (nth_error l i) | _ => None end.
End Choose.

(** mbr_kbest.cc:111: the metrics taken for errors; EvaluationMetric::IsErrorMetric of TER, WER
    and CER (ns_ter.cc, ns_wer.cc, ns_cer.cc) *)
Inductive metric := BLEU | TER | WER | CER.
Definition taken_for_loss (m : metric) : bool := match m with TER => true | _ => false end.
Definition IsErrorMetric (m : metric) : bool := match m with BLEU => false | _ => true end.
