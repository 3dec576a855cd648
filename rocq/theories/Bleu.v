(** Model of the BLEU evaluator, mteval/ns.cc 67-254 (CharBased = false).

    N-gram counts held in floats are natural numbers (exact below 2^24), lengths
    are rationals, scores are reals: rounding is not modelled.  std::map is a
    list of keys and values; the order of iteration plays no role.  NGramCompare
    (114-126) identifies two n-grams only if they are equal (word ids are not
    negative, so the subtraction does not overflow).  A write outside of the
    statistics vector, and a division by zero in the score, give [None]. *)
From Coq Require Import List Arith ZArith QArith Qabs Bool Reals Qreals.
From Verif Require Import HG Stats.
Import ListNotations.

Open Scope nat_scope.
Definition word := Z.
Definition gram := list word.
Definition gram_eqb (a b : gram) : bool := if list_eq_dec Z.eq_dec a b then true else false.
(** 127 *)
Definition cmap := list (gram * (nat * nat)).
(** operator[], with the default pair inserted by [touch] *)
Fixpoint get (m : cmap) (k : gram) : nat * nat :=
  match m with [] => (0, 0) | (k', v) :: r => if gram_eqb k' k then v else get r k end.
Fixpoint touch (m : cmap) (k : gram) (f : nat * nat -> nat * nat) : cmap :=
  match m with [] => [(k, f (0, 0))] | (k', v) :: r => if gram_eqb k' k then (k', f v) :: r else (k', v) :: touch r k f end.
Definition bump_first (p : nat * nat) := (S (fst p), snd p).
Definition bump_second (p : nat * nat) := (fst p, S (snd p)).

Section B.
Variable N : nat.

(** 137-140: [ws] are the up to N words from position j; [pre] is ngram *)
Fixpoint count_from (tc : cmap) (pre : gram) (ws : list word) : cmap :=
  match ws with [] => tc | w :: r => count_from (touch tc (pre ++ [w]) bump_first) (pre ++ [w]) r end.
(** 130-141 *)
Definition count_ref (ref : list word) : cmap :=
  fold_left (fun tc j => count_from tc [] (firstn N (skipn j ref))) (seq 0 (length ref)) [].
(** 142-146 *)
Definition merge_ref (ngrams : cmap) (kv : gram * (nat * nat)) : cmap :=
  touch ngrams (fst kv) (fun p => if fst p <? fst (snd kv) then snd kv else p).
Definition CountRef (ngrams : cmap) (ref : list word) : cmap := fold_left merge_ref (count_ref ref) ngrams.

(** 179-180 *)
Fixpoint bump_hyp (fs : list nat) (i : nat) (ws : list word) : option (list nat) :=
  match ws with
  | [] => Some fs
  | _ :: r => match upd fs (N + i) S with Some fs' => bump_hyp fs' (S i) r | None => None end
  end.
(** 165-184, with i counted from 0; [fs] are the fields *)
Fixpoint stat_from (clip : bool) (m : cmap) (fs : list nat) (i : nat) (pre : gram) (ws : list word) : option (cmap * list nat) :=
  match ws with
  | [] => Some (m, fs)
  | w :: r =>
    let ng := pre ++ [w] in
    let p := get m ng in
    let hit := if clip then snd p <? fst p else true in
    let m' := touch m ng (if hit then bump_second else fun p => p) in
    match (if hit then upd fs i S else Some fs) with
    | None => None
    | Some fs1 =>
      if fst p =? 0 then match bump_hyp fs1 i ws with Some fs2 => Some (m', fs2) | None => None end
      else match upd fs1 (N + i) S with Some fs2 => stat_from clip m' fs2 (S i) ng r | None => None end
    end
  end.
(** 154-155 *)
Definition reset (m : cmap) : cmap := map (fun kv => (fst kv, (fst (snd kv), 0))) m.
Fixpoint stat_pos (clip : bool) (sent : list word) (js : list nat) (m : cmap) (fs : list nat) : option (cmap * list nat) :=
  match js with
  | [] => Some (m, fs)
  | j :: r => match stat_from clip m fs 0 [] (firstn N (skipn j sent)) with Some (m', fs') => stat_pos clip sent r m' fs' | None => None end
  end.
(** 149-186 *)
Definition ComputeNgramStats (clip : bool) (m : cmap) (sent : list word) (fs : list nat) : option (cmap * list nat) :=
  stat_pos clip sent (seq 0 (length sent)) (reset m) fs.

(** 67; 188-190 *)
Inductive btype := IBM | Koehn | NIST | QCRI.
Variable bt : btype.
Record evaluator := { lengths : list Q; ngrams : cmap }.
Definition len (s : list word) : Q := inject_Z (Z.of_nat (length s)).
Definition set_first (l : list Q) (x : Q) : list Q := match l with [] => [] | _ :: r => x :: r end.
(** 70-87 *)
Definition smallest (l : list Q) : Q := fold_left (fun s x => if Qlt_le_dec x s then x else s) l (inject_Z 9999999).
Definition mk_evaluator (refs : list (list word)) : option evaluator :=
  match refs with
  | [] => None
  | _ =>
    let ls := map len refs in
    Some {| lengths := match bt with
                       | Koehn => set_first ls (fold_left Qplus ls 0 / inject_Z (Z.of_nat (length refs)))%Q
                       | NIST => set_first ls (smallest ls)
                       | _ => ls
                       end;
            ngrams := fold_left CountRef refs [] |}
  end.
(** 101-110 *)
Definition closest (ls : list Q) (hl : Q) : Q :=
  snd (fold_left (fun st l => if Qlt_le_dec (Qabs (l - hl)) (fst st) then (Qabs (l - hl), l) else st)%Q ls (inject_Z 2000000, inject_Z (-1))).
(** 98-111 *)
Definition ref_length (ls : list Q) (hl : Q) : Q :=
  match ls, bt with
  | _ :: _ :: _, IBM | _ :: _ :: _, QCRI => closest ls hl
  | l :: _, _ => l
  | [], _ => 0%Q
  end.
(** 89-112: the statistics and the evaluator afterwards *)
Definition Evaluate (ev : evaluator) (hyp : list word) : option (stats * evaluator) :=
  match ComputeNgramStats true (ngrams ev) hyp (repeat 0 (N + N)) with
  | Some (m, fs) =>
    Some ({| sid := []; fields := map (fun n => inject_Z (Z.of_nat n)) fs ++ [len hyp; ref_length (lengths ev) (len hyp)] |},
          {| lengths := lengths ev; ngrams := m |})
  | None => None
  end.
(** Evaluations one after the other. *)
Fixpoint Evaluate_all (ev : evaluator) (hs : list (list word)) : option (list stats * evaluator) :=
  match hs with
  | [] => Some ([], ev)
  | h :: r =>
    match Evaluate ev h with
    | Some (s, ev') => match Evaluate_all ev' r with Some (ss, ev'') => Some (s :: ss, ev'') | None => None end
    | None => None
    end
  end.

(** mteval/fast_score.cc 53-64: one evaluator per line, the totals.  Line 61
    reads ds[lc] before lc is compared with the number of evaluators (66). *)
Fixpoint total (evs : list evaluator) (hyps : list (list word)) (acc : stats) : option stats :=
  match hyps with
  | [] => Some acc
  | h :: r =>
    match evs with
    | [] => None
    | ev :: evs' => match Evaluate ev h with Some (t, _) => total evs' r (ss_plus acc t) | None => None end
    end
  end.

(** 205-218: the sum of the log precisions, the QCRI adjustment, and count *)
Open Scope R_scope.
Definition alpha : R := match bt with QCRI => 1 | _ => / 100 end.
Definition field (f : list Q) (i : nat) : R := Q2R (nth i f 0%Q).
Definition prec_step (f : list Q) (st : R * R * nat) (i : nat) : R * R * nat :=
  let '(lb, adj, c) := st in
  if Rlt_dec 0 (field f (i + N)) then
    let cor := if Req_EM_T (field f i) 0 then alpha else field f i in
    (lb + (ln cor - ln (field f (i + N))), adj + (ln alpha - ln (field f (i + N) + alpha)), Datatypes.S c)
  else st.
(** 219-234 *)
Definition ComputeScore (f : list Q) : option R :=
  let '(lb, adj, c) := fold_left (prec_step f) (seq 0 N) (0, 0, 0%nat) in
  if (c =? 0)%nat then None
  else
    let hyp_len := field f (2 * N) in
    let ref_len := field f (2 * N + 1) in
    match (if Rlt_dec hyp_len ref_len then
             if Req_EM_T hyp_len 0 then None
             else Some (match bt with QCRI => (hyp_len - ref_len - alpha) / hyp_len | _ => (hyp_len - ref_len) / hyp_len end)
           else Some 0) with
    | None => None
    | Some lbp =>
      let log_bleu := lb / INR c + lbp in
      Some (match bt with QCRI => exp log_bleu - exp (lbp + adj / INR c) | _ => exp log_bleu end)
    end.
End B.
