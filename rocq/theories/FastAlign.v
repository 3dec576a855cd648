(** Model of the word aligner word-aligner/fast_align.cc with the diagonal alignment
    distribution (word-aligner/da.h) and the translation table (word-aligner/ttables.h).

    Doubles are exact real numbers.  The corpus is given as pairs of lists of word ids
    (reading and swapping lines is left out, so --reverse is a corpus read the other way
    round); sentence lengths are below 2^15 (a short in size_counts).  Hash maps are
    association lists; what is computed from them does not depend on their order.  Not
    modelled: --variational_bayes, --force_align, the length model of the test set and all
    messages but the likelihoods. *)
From Coq Require Import Reals List Arith ZArith Bool.
Import ListNotations.
Local Open Scope R_scope.
Local Open Scope nat_scope.

(** ** da.h *)

(** 67-69 *)
Definition Feature (i j m n : nat) : R := (- Rabs (INR j / INR n - INR i / INR m))%R.
(** 13-21 *)
Definition UnnormalizedProb (i j m n : nat) (alpha : R) : R := exp (Feature i j m n * alpha)%R.
(** 29-30, 47-48: a double made an unsigned, for double(i) * n / m *)
Definition split_floor (i m n : nat) : nat := i * n / m.
(** 33, 52: difference of two 32 bit unsigned integers *)
Definition usub (a b : nat) : nat := Z.to_nat ((Z.of_nat a - Z.of_nat b) mod 2 ^ 32)%Z.
(** 23-41 *)
Definition ComputeZ (i m n : nat) (alpha : R) : R :=
  let floor := split_floor i m n in
  let ceil := floor + 1 in
  let ratio := exp (- alpha / INR n)%R in
  let num_top := usub n floor in
  let ezt := if num_top =? 0 then 0%R else (UnnormalizedProb i ceil m n alpha * (1 - ratio ^ num_top) / (1 - ratio))%R in
  let ezb := if floor =? 0 then 0%R else (UnnormalizedProb i floor m n alpha * (1 - ratio ^ floor) / (1 - ratio))%R in
  (ezb + ezt)%R.
(** 72-79; [n] is not 0 *)
Definition arithmetico_geometric_series (a_1 g_1 r d : R) (n : nat) : R :=
  let g_np1 := (g_1 * r ^ n)%R in
  let a_n := (d * INR (n - 1) + a_1)%R in
  let x_1 := (a_1 * g_1)%R in
  let g_2 := (g_1 * r)%R in
  let rm1 := (r - 1)%R in
  ((a_n * g_np1 - x_1) / rm1 - d * (g_np1 - g_2) / (rm1 * rm1))%R.
(** 43-65.  Line 44 passes n and m in this order. *)
Definition ComputeDLogZ (i m n : nat) (alpha : R) : R :=
  let z := ComputeZ i n m alpha in
  let floor := split_floor i m n in
  let ceil := floor + 1 in
  let ratio := exp (- alpha / INR n)%R in
  let d := (-1 / INR n)%R in
  let num_top := usub n floor in
  let pct := if num_top =? 0 then 0%R else arithmetico_geometric_series (Feature i ceil m n) (UnnormalizedProb i ceil m n alpha) ratio d num_top in
  let pcb := if floor =? 0 then 0%R else arithmetico_geometric_series (Feature i floor m n) (UnnormalizedProb i floor m n alpha) ratio d floor in
  ((pct + pcb) / z)%R.

(** ** ttables.h *)
Definition row := list (nat * R).
Definition table := list row.
Fixpoint lookup (f : nat) (r : row) : option R :=
  match r with [] => None | (k, v) :: r' => if k =? f then Some v else lookup f r' end.
Definition unseen : R := (1 / 10 ^ 9)%R.
(** 25-34 *)
Definition tprob (t : table) (e f : nat) : R :=
  match nth_error t e with
  | Some cpd => match lookup f cpd with Some p => p | None => unseen end
  | None => unseen
  end.
(** 39-42 *)
Fixpoint bump (r : row) (f : nat) (x : R) : row :=
  match r with
  | [] => [(f, (0 + x)%R)]
  | (k, v) :: r' => if k =? f then (k, (v + x)%R) :: r' else (k, v) :: bump r' f x
  end.
Fixpoint Increment (t : table) (e f : nat) (x : R) : table :=
  match e, t with
  | O, [] => [bump [] f x]
  | O, r :: t' => bump r f x :: t'
  | S e', [] => [] :: Increment [] e' f x
  | S e', r :: t' => r :: Increment t' e' f x
  end.
(** 57-69; [counts] becomes the table and a new, empty one is used for counting *)
Definition NormalizeRow (cpd : row) : row :=
  let tot := fold_left (fun s (p : nat * R) => (s + snd p)%R) cpd 0%R in
  let tot := if Req_EM_T tot 0 then 1%R else tot in
  map (fun p => (fst p, (snd p / tot)%R)) cpd.
Definition Normalize (counts : table) : table := map NormalizeRow counts.

(** ** fast_align.cc *)
Record config := Config { use_null : bool; kNULL : nat; favor_diagonal : bool; prob_align_null : R; optimize_tension : bool; add_viterbi : bool; hide_training_alignments : bool }.
Definition sentence := (list nat * list nat)%type.

Section Aligner.
Variable c : config.

(** 152-160, 162-163: prob_a_i, for index 0 (the null word) and the others *)
Definition uniform (n : nat) : R := (1 / INR (n + if use_null c then 1 else 0))%R.
Definition prior (tension : R) (j m n i : nat) : R :=
  if favor_diagonal c then
    match i with
    | O => prob_align_null c
    | _ => (UnnormalizedProb (j + 1) i m n tension / (ComputeZ (j + 1) m n tension / (1 - prob_align_null c)))%R
    end
  else uniform n.
(** The indices and source words a target word can be aligned to. *)
Definition choices (src : list nat) : list (nat * nat) :=
  (if use_null c then [(0, kNULL c)] else []) ++ combine (seq 1 (length src)) src.
(** 151-166: probs, and their sum *)
Definition probs (tension : R) (t : table) (src : list nat) (m j f : nat) : list (nat * nat * R) :=
  map (fun ie => (ie, (tprob t (snd ie) f * prior tension j m (length src) (fst ie))%R)) (choices src).
Definition psum (ps : list (nat * nat * R)) : R := fold_left (fun s (p : nat * nat * R) => (s + snd p)%R) ps 0%R.

(** counts, c0, emp_feat, toks, likelihood *)
Record stats := Stats { counts : table; c0 : R; emp_feat : R; toks : R; likelihood : R }.
Definition start : stats := Stats [] 0 0 0 0.

(** 196-208: one target word [f] in place [j], any iteration but the last *)
Definition count_one (m n j f : nat) (sum : R) (s : stats) (x : nat * nat * R) : stats :=
  let '(i, e, q) := x in
  let p := (q / sum)%R in
  match i with
  | O => Stats (Increment (counts s) e f p) (c0 s + p)%R (emp_feat s) (toks s) (likelihood s)
  | _ => Stats (Increment (counts s) e f p) (c0 s) (emp_feat s + Feature j i m n * p)%R (toks s) (likelihood s)
  end.
Definition count_word (tension : R) (t : table) (src : list nat) (m j f : nat) (s : stats) : stats :=
  let ps := probs tension t src m j f in
  let s1 := fold_left (count_one m (length src) j f (psum ps)) ps s in
  Stats (counts s1) (c0 s1) (emp_feat s1) (toks s1) (likelihood s1 + ln (psum ps))%R.
(** 148-209 *)
Fixpoint count_words (tension : R) (t : table) (src : list nat) (m j : nat) (trg : list nat) (s : stats) : stats :=
  match trg with
  | [] => s
  | f :: trg' => count_words tension t src m (S j) trg' (count_word tension t src m j f s)
  end.
Definition count_sentence (tension : R) (t : table) (s : stats) (p : sentence) : stats :=
  let s1 := Stats (counts s) (c0 s) (emp_feat s) (toks s + INR (length (snd p)))%R (likelihood s) in
  count_words tension t (fst p) (length (snd p)) 0 (snd p) s1.
Definition count_corpus (tension : R) (t : table) (corpus : list sentence) : stats := fold_left (count_sentence tension t) corpus start.

(** 233-240: mod_feat.  The sentences are not grouped by size here. *)
Definition mod_feat (tension : R) (corpus : list sentence) (toks : R) : R :=
  (fold_left (fun s (p : sentence) => fold_left (fun s j => s + ComputeDLogZ j (length (snd p)) (length (fst p)) tension)%R (seq 1 (length (snd p))) s) corpus 0 / toks)%R.
Definition tune_once (corpus : list sentence) (emp toks tension : R) : R :=
  let t1 := (tension + (emp - mod_feat tension corpus toks) * 20)%R in
  let t2 := if Rle_lt_dec t1 (1 / 10) then (1 / 10)%R else t1 in
  if Rlt_le_dec 14 t2 then 14%R else t2.
(** 231-246 *)
Definition tune (corpus : list sentence) (emp toks tension : R) : R := Nat.iter 8 (tune_once corpus emp toks) tension.

(** 168-183: the best index; strict comparison, from -1 without a null word *)
Definition best_one (b : option (nat * nat) * R) (x : nat * nat * R) : option (nat * nat) * R :=
  if Rlt_le_dec (snd b) (snd x) then (Some (fst x), snd x) else b.
Definition best_choice (ps : list (nat * nat * R)) : option (nat * nat) :=
  match use_null c, ps with
  | true, x :: ps' => fst (fold_left best_one ps' (Some (fst x), snd x))
  | _, _ => fst (fold_left best_one ps (None, (-1)%R))
  end.
(** s2t_viterbi: 193-194 *)
Fixpoint add_pair (v : list (list nat)) (e f : nat) : list (list nat) :=
  match e, v with
  | O, [] => [[f]]
  | O, r :: v' => (f :: r) :: v'
  | S e', [] => [] :: add_pair [] e' f
  | S e', r :: v' => r :: add_pair v' e' f
  end.
(** The last iteration: links (source index, target index) in the order printed, the
    Viterbi pairs, the likelihood.  167-195, 208 *)
Record final := Final { links : list (list (nat * nat)); viterbi : list (list nat); flik : R }.
Fixpoint final_words (tension : R) (t : table) (src : list nat) (m j : nat) (trg : list nat) (v : list (list nat)) (lik : R) : list (nat * nat) * list (list nat) * R :=
  match trg with
  | [] => ([], v, lik)
  | f :: trg' =>
    let ps := probs tension t src m j f in
    let b := best_choice ps in
    let v1 := if orb (add_viterbi c) (negb (hide_training_alignments c)) then add_pair v (match b with Some (_, e) => e | None => 0 end) f else v in
    let '(ls, v2, lik2) := final_words tension t src m (S j) trg' v1 (lik + ln (psum ps))%R in
    ((match b with Some (S i, _) => [(i, j)] | _ => [] end) ++ ls, v2, lik2)
  end.
Definition final_sentence (tension : R) (t : table) (s : final) (p : sentence) : final :=
  let '(ls, v, lik) := final_words tension t (fst p) (length (snd p)) 0 (snd p) (viterbi s) (flik s) in
  Final (links s ++ [ls]) v lik.
Definition final_corpus (tension : R) (t : table) (corpus : list sentence) : final :=
  fold_left (final_sentence tension t) corpus (Final [] [] 0).

(** 113-256.  [iters] iterations remain, [first] holds in the first one.  The result: the
    likelihood of each iteration, the table and tension after training, and what the last
    iteration leaves. *)
Fixpoint iterate (iters : nat) (first : bool) (corpus : list sentence) (tension : R) (t : table) : list R * table * R * final :=
  match iters with
  | O => ([], t, tension, Final [] [] 0)
  | S O => let f := final_corpus tension t corpus in ([flik f], t, tension, f)
  | S iters' =>
    let s := count_corpus tension t corpus in
    let tension' := if andb (andb (favor_diagonal c) (optimize_tension c)) (negb first) then tune corpus (emp_feat s / toks s)%R (toks s) tension else tension in
    let '(ls, t2, tension2, f) := iterate iters' false corpus tension' (Normalize (counts s)) in
    (likelihood s :: ls, t2, tension2, f)
  end.
(** 136-139: an empty side is an error. *)
Definition train (iters : nat) (corpus : list sentence) (tension : R) : option (list R * table * R * final) :=
  if existsb (fun p : sentence => orb (length (fst p) =? 0) (length (snd p) =? 0)) corpus then None else Some (iterate iters true corpus tension []).

(** 271-305: the test set.  The best index for one target word; 0 for none. *)
Definition test_one (b : nat * R) (x : nat * nat * R) : nat * R := if Rlt_le_dec (snd b) (snd x) then (fst (fst x), snd x) else b.
Definition test_choice (ps : list (nat * nat * R)) : nat :=
  match use_null c, ps with
  | true, x :: ps' => fst (fold_left test_one ps' (0, snd x))
  | _, _ => fst (fold_left test_one ps (0, 0%R))
  end.
Fixpoint test_words (tension : R) (t : table) (src : list nat) (m j : nat) (trg : list nat) : list (nat * nat) :=
  match trg with
  | [] => []
  | f :: trg' =>
    (match test_choice (probs tension t src m j f) with S i => [(i, j)] | O => [] end) ++ test_words tension t src m (S j) trg'
  end.
Definition test_sentence (tension : R) (t : table) (p : sentence) : list (nat * nat) := test_words tension t (fst p) (length (snd p)) 0 (snd p).

(** 310-326: the parameters written, as (e, f, log probability); [None] if s2t_viterbi is
    read behind its end. *)
Definition write_row (beam : R) (e : nat) (cpd : row) (vit : list nat) : list (nat * nat * R) :=
  let max_p := fold_left (fun mx (p : nat * R) => if Rlt_le_dec mx (snd p) then snd p else mx) cpd (-1)%R in
  flat_map (fun p : nat * R => if orb (if Rlt_le_dec (max_p * beam) (snd p) then true else false) (existsb (Nat.eqb (fst p)) vit) then [(e, fst p, ln (snd p))] else []) cpd.
Fixpoint write_rows (beam : R) (e : nat) (t : table) (v : list (list nat)) : option (list (nat * nat * R)) :=
  match t, v with
  | [], _ => Some []
  | _ :: _, [] => None
  | cpd :: t', vit :: v' => match write_rows beam (S e) t' v' with Some l => Some (write_row beam e cpd vit ++ l) | None => None end
  end.
Definition write_params (beam : R) (t : table) (v : list (list nat)) : option (list (nat * nat * R)) := write_rows beam 1 (tl t) (tl v).
End Aligner.
