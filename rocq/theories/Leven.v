(** Model of cdec::LevenshteinDistance (mteval/levenshtein.h 6-25), WERMetric and
    CERMetric (mteval/ns_wer.cc 17-34, ns_cer.cc 17-36).

    Words and characters are integers.  The array of two rows is a list; an access
    outside it is [None].  Counters are natural numbers: wrap-around of unsigned at
    2^32 symbols is not modelled, nor the rounding of float above 2^24. *)
From Coq Require Import List Arith ZArith Bool.
Import ListNotations.
Open Scope nat_scope.

(** Assignment to a cell of an array. *)
Fixpoint put (l : list nat) (i v : nat) : option (list nat) :=
  match l, i with
  | [], _ => None
  | _ :: r, O => Some (v :: r)
  | x :: r, S j => option_map (cons x) (put r j v)
  end.

(** levenshtein.h 12-21: one cell, i over b, j over a *)
Definition lev_cell (a b : list Z) (m i j : nat) (edit : list nat) : option (list nat) :=
  if i =? 0 then put edit j j
  else if j =? 0 then put edit ((i mod 2) * (m + 1)) i
  else
    match nth_error edit ((i mod 2) * (m + 1) + j - 1),
          nth_error edit (((i - 1) mod 2) * (m + 1) + j),
          nth_error edit (((i - 1) mod 2) * (m + 1) + (j - 1)),
          nth_error a (j - 1), nth_error b (i - 1) with
    | Some lft, Some up, Some diag, Some x, Some y =>
      put edit ((i mod 2) * (m + 1) + j)
        (Nat.min (Nat.min (lft + 1) (up + 1)) (diag + (if (x =? y)%Z then 0 else 1)))
    | _, _, _, _, _ => None
    end.
(** 11-22: for j *)
Definition lev_row (a b : list Z) (m i : nat) (edit : option (list nat)) : option (list nat) :=
  fold_left (fun e j => match e with Some e' => lev_cell a b m i j e' | None => None end) (seq 0 (m + 1)) edit.
(** 7-25 *)
Definition LevenshteinDistance (a b : list Z) : option nat :=
  let m := length a in let n := length b in
  match fold_left (fun e i => lev_row a b m i e) (seq 0 (n + 1)) (Some (repeat 0 ((m + 1) * 2))) with
  | Some edit => nth_error edit ((n mod 2) * (m + 1) + m)
  | None => None
  end.

(** ns_wer.cc 21-29; the fields are (edit distance, reference length) *)
Fixpoint wer_loop (hyp : list Z) (refs : list (list Z)) (first : bool) (best : nat) (out : nat * nat) : option (nat * nat) :=
  match refs with
  | [] => Some out
  | r :: rest =>
    match LevenshteinDistance hyp r with
    | Some score =>
      if (score <? best) || first then wer_loop hyp rest false score (score, length r)
      else wer_loop hyp rest false best out
    | None => None
    end
  end.
Definition wer_stats (hyp : list Z) (refs : list (list Z)) : option (nat * nat) := wer_loop hyp refs true 0 (0, 0).

(** ns_cer.cc 22-31, on the strings of hypothesis and references *)
Fixpoint cer_loop (hyp : list Z) (refs : list (list Z)) (best : nat) (out : nat * nat) : option (nat * nat) :=
  match refs with
  | [] => Some out
  | r :: rest =>
    match LevenshteinDistance hyp r with
    | Some score =>
      if score <? best then cer_loop hyp rest score (score, length r)
      else cer_loop hyp rest best out
    | None => None
    end
  end.
Definition cer_stats (hyp : list Z) (refs : list (list Z)) : option (nat * nat) := cer_loop hyp refs (length hyp) (0, 0).
