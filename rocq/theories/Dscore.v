(** Model of the sentence-level scores of dtrain (training/dtrain/score.{h,cc}, dtrain.h).
    Simplified: score_t (double) is the real numbers; words are numbers; std::map is an
    association list without double keys, in the order of insertion (the code only looks
    keys up and adds over all entries). SumExpBleuScorer and SumWhateverBleuScorer are
    not modelled. *)
From Coq Require Import Reals List Arith Bool.
Import ListNotations.
Local Open Scope R_scope.

Notation ngram := (list nat).
Definition ngram_dec := list_eq_dec Nat.eq_dec.
Notation ngmap := (list (list nat * nat)).

(** score.h:113 ngrams[ng]++ *)
Fixpoint incr (m : ngmap) (g : ngram) : ngmap :=
  match m with
  | [] => [(g, 1%nat)]
  | (k, c) :: m' => if ngram_dec k g then (k, S c) :: m' else (k, c) :: incr m' g
  end.

(** score.h:128 find *)
Fixpoint find (m : ngmap) (g : ngram) : option nat :=
  match m with
  | [] => None
  | (k, c) :: m' => if ngram_dec k g then Some c else find m' g
  end.

(** score.h:109-115: the n-grams pushed, in this order *)
Definition occs (N : nat) (s : list nat) : list ngram :=
  flat_map (fun i => map (fun l => firstn (S l) (skipn i s)) (seq 0 (Nat.min (i + N) (length s) - i))) (seq 0 (length s)).

(** score.h:104-117: make_ngrams *)
Definition make_ngrams (s : list nat) (N : nat) : ngmap := fold_left incr (occs N s) [].

(** score.h:10-16, 57-73: NgramCounts, clipped and total for each order *)
Notation counts := (list (R * R)).
Definition zero (N : nat) : counts := repeat (0, 0) N.
Definition one (N : nat) : counts := repeat (1, 1) N.

(** score.h:45-55: Add *)
Fixpoint add (c : counts) (count ref_count : nat) (i : nat) : counts :=
  match c, i with
  | [], _ => []
  | (cl, su) :: c', O => ((cl + INR (if ref_count <? count then ref_count else count)%nat), su + INR count) :: c'
  | x :: c', S i' => x :: add c' count ref_count i'
  end.

(** score.h:119-136: make_ngram_counts *)
Definition make_ngram_counts (hyp ref : list nat) (N : nat) : counts :=
  let rm := make_ngrams ref N in
  fold_left (fun c e => add c (snd e) (match find rm (fst e) with Some r => r | None => 0%nat end) (length (fst e) - 1))
    (make_ngrams hyp N) (zero N).

(** score.h:18-26 operator+= ; None: an entry of the right hand side which does not
    exist is read *)
Fixpoint plus_eq (a b : counts) : option counts :=
  match a, b with
  | [], [] => Some []
  | [], y :: b' => match plus_eq [] b' with Some r => Some ((0 + fst y, 0 + snd y) :: r) | None => None end
  | _ :: _, [] => None
  | x :: a', y :: b' => match plus_eq a' b' with Some r => Some ((fst x + fst y, snd x + snd y) :: r) | None => None end
  end.

(** score.h:36-43 *)
Definition times (a : counts) (x : R) : counts := map (fun p => (fst p * x, snd p * x)) a.

(** dtrain.h:80-85 *)
Definition brevity_penalty (hyp_len ref_len : nat) : R :=
  if (ref_len <? hyp_len)%nat then 1 else exp (1 - INR ref_len / INR hyp_len).

(** dtrain.h:71-78 Init: default weights *)
Definition default_weights (N : nat) : list R := repeat (1 / INR N) N.

Section Scorers.
Variable N_ : nat.
Variable w_ : list R.

(** score.cc:20-25, 61-66, 90-95 *)
Definition order (ref_len : nat) : nat := if (ref_len <? N_)%nat then ref_len else N_.
Definition weight (ref_len i : nat) : R := if (ref_len <? N_)%nat then 1 / INR ref_len else nth i w_ 0.

Definition clipped_ (c : counts) (i : nat) : R := fst (nth i c (0, 0)).
Definition sum_ (c : counts) (i : nat) : R := snd (nth i c (0, 0)).

(** score.cc:28, 127, 157: counts.sum_[i] == 0 || counts.clipped_[i] == 0 *)
Definition missing (c : counts) (i : nat) : bool :=
  if Req_EM_T (sum_ c i) 0 then true else if Req_EM_T (clipped_ c i) 0 then true else false.

(** score.cc:26-30; None: return 0 *)
Fixpoint bleu_loop (c : counts) (ref_len : nat) (is : list nat) (sum : R) : option R :=
  match is with
  | [] => Some sum
  | i :: is' => if missing c i then None
                else bleu_loop c ref_len is' (sum + weight ref_len i * ln (clipped_ c i / sum_ c i))
  end.

(** score.cc:16-32: Bleu *)
Definition Bleu (c : counts) (hyp_len ref_len : nat) : R :=
  if (hyp_len =? 0)%nat || (ref_len =? 0)%nat then 0 else
  match bleu_loop c ref_len (seq 0 (order ref_len)) 0 with
  | None => 0
  | Some sum => brevity_penalty hyp_len ref_len * exp sum
  end.

(** score.cc:34-42: BleuScorer::Score *)
Definition bleu_score (hyp ref : list nat) : R :=
  if (length hyp =? 0)%nat || (length ref =? 0)%nat then 0 else
  Bleu (make_ngram_counts hyp ref N_) (length hyp) (length ref).

(** score.cc:67-72, 96-101: the loop of the two 'stupid' scores; None: return 0 *)
Fixpoint stupid_loop (c : counts) (ref_len : nat) (is : list nat) (sum : R) : option R :=
  match is with
  | [] => Some sum
  | i :: is' =>
    if (i =? 0)%nat && missing c i then None else
    let a := if (i =? 0)%nat then 0 else 1 in
    stupid_loop c ref_len is' (sum + weight ref_len i * ln ((clipped_ c i + a) / (sum_ c i + a)))
  end.

(** score.cc:54-74 and 83-103: StupidBleuScorer (extra = 0) and FixedStupidBleuScorer (extra = 1) *)
Definition stupid_score (extra : nat) (hyp ref : list nat) : R :=
  if (length hyp =? 0)%nat || (length ref =? 0)%nat then 0 else
  match stupid_loop (make_ngram_counts hyp ref N_) (length ref) (seq 0 (order (length ref))) 0 with
  | None => 0
  | Some sum => brevity_penalty (length hyp) (length ref + extra) * exp sum
  end.

(** score.cc:126-136: the loop of SmoothBleuScorer; break ends it *)
Fixpoint smooth_loop (c : counts) (is : list nat) (i_bleu : nat -> R) (sum : R) : R :=
  match is with
  | [] => sum
  | i :: is' =>
    if missing c i then sum else
    let i_ng := ln (clipped_ c i / sum_ c i) in
    let i_bleu' := fun j => if (i <=? j)%nat then i_bleu j + (1 / (INR j + 1)) * i_ng else i_bleu j in
    smooth_loop c is' i_bleu' (sum + exp (i_bleu' i) / 2 ^ (N_ - i))
  end.

(** score.cc:114-138: SmoothBleuScorer::Score *)
Definition smooth_score (hyp ref : list nat) : R :=
  if (length hyp =? 0)%nat || (length ref =? 0)%nat then 0 else
  brevity_penalty (length hyp) (length ref) *
  smooth_loop (make_ngram_counts hyp ref N_) (seq 0 (order (length ref))) (fun _ => 0) 0.

(** score.cc:156-160: the loop of SumBleuScorer (j is i+1) *)
Fixpoint sum_loop (c : counts) (is : list nat) (sum : R) : R :=
  match is with
  | [] => sum
  | i :: is' => if missing c i then sum
                else sum_loop c is' (sum + (clipped_ c i / sum_ c i) / 2 ^ (N_ - S i + 1))
  end.

(** score.cc:145-162: SumBleuScorer::Score *)
Definition sum_score (hyp ref : list nat) : R :=
  if (length hyp =? 0)%nat || (length ref =? 0)%nat then 0 else
  brevity_penalty (length hyp) (length ref) * sum_loop (make_ngram_counts hyp ref N_) (seq 0 (order (length ref))) 0.

(** score.cc:226-247: ApproxBleuScorer::Score; score and new context of one-best translations
    (the accumulated lengths are not read by the score and left out) *)
Definition approx_score (discount_ : R) (glob : counts) (hyp ref : list nat) (rank : nat) : option (R * counts) :=
  if (length ref =? 0)%nat then Some (0, glob) else
  let c := if (length hyp =? 0)%nat then zero N_ else make_ngram_counts hyp ref N_ in
  match (if (length hyp =? 0)%nat then Some 0 else option_map (fun tmp => Bleu tmp (length hyp) (length ref)) (plus_eq glob c)) with
  | None => None
  | Some score =>
    if (rank =? 0)%nat then option_map (fun g => (score, times g discount_)) (plus_eq glob c) else Some (score, glob)
  end.

(** score.h:181-199: any sequence of calls Score(hyp, ref, rank) of one ApproxBleuScorer; the
    scores, in this order *)
Fixpoint approx_run (d : R) (g : counts) (calls : list (list nat * list nat * nat)) : option (list R) :=
  match calls with
  | [] => Some []
  | (hyp, ref, rank) :: calls' =>
    match approx_score d g hyp ref rank with
    | None => None
    | Some (v, g') => option_map (cons v) (approx_run d g' calls')
    end
  end.

(** score.cc:268-272: the loop of LinearBleuScorer *)
Fixpoint linear_loop (c onebest : counts) (is : list nat) (ret : R) : R :=
  match is with
  | [] => ret
  | i :: is' =>
    if Req_EM_T (sum_ c i) 0 then ret else if Req_EM_T (sum_ onebest i) 0 then ret
    else linear_loop c onebest is' (ret + sum_ c i / sum_ onebest i)
  end.

(** score.cc:257-279: LinearBleuScorer::Score; None: undefined behaviour *)
Definition linear_score (st : nat * counts) (hyp ref : list nat) (rank : nat) : option (R * (nat * counts)) :=
  let (onebest_len, onebest) := st in
  if (length ref =? 0)%nat then Some (0, st) else
  let M := order (length ref) in
  let c := if (length hyp =? 0)%nat then zero M else make_ngram_counts hyp ref M in
  let ret := - (INR (length hyp) / INR onebest_len) + 1 / INR M * linear_loop c onebest (seq 0 M) 0 in
  if (rank =? 0)%nat then
    option_map (fun o => (ret, ((onebest_len + length hyp)%nat, o))) (plus_eq onebest c)
  else Some (ret, st).
End Scorers.
