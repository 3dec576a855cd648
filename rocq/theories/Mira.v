(** Model of the training loop of k-best MIRA (training/mira/kbest_mira.cc).
    Simplified: doubles and floats are the real numbers; a sparse vector is the list of its
    values for the features 0, 1, ..., all lists of the same length; the decoder and the
    metric are not modelled: an iteration is given the hypotheses of the forest of its
    sentence with their scores, whatever they are. The scaling of the weights before and
    after decoding (lines 276-288) is left out, it does not change them. *)
From Coq Require Import Reals List Arith Bool.
Import ListNotations.
Local Open Scope R_scope.

Notation vec := (list R).
(** fast_sparse_vector.h dot, operator+=, -=, *, / (C03-C05) *)
Definition dot (a b : vec) : R := fold_right Rplus 0 (map (fun p => fst p * snd p) (combine a b)).
Definition vadd (a b : vec) : vec := map (fun p => fst p + snd p) (combine a b).
Definition vsub (a b : vec) : vec := map (fun p => fst p - snd p) (combine a b).
Definition vscale (x : R) (a : vec) : vec := map (Rmult x) a.
Definition vdiv (a : vec) (x : R) : vec := map (fun y => y / x) a.

(** kbest_mira.cc:85-88 HypothesisInfo: features and mt_metric *)
Notation hyp := (list R * R)%type.

(** kbest_mira.cc:146-160, 134-142: the loop over the hypotheses (with their scores after
    line 152/137); cur_good is kept from earlier passes *)
Fixpoint oracles (l : list hyp) (good bad : option hyp) : option hyp * option hyp :=
  match l with
  | [] => (good, bad)
  | h :: l' =>
    let good' := match good with None => Some h | Some g => if Rlt_dec (snd g) (snd h) then Some h else good end in
    let bad' := match bad with None => Some h | Some b => if Rlt_dec (snd h) (snd b) then Some h else bad end in
    oracles l' good' bad'
  end.

(** kbest_mira.cc:152, 137: if (invert_score) sentscore *= -1 *)
Definition signed (invert : bool) (x : R) : R := if invert then x * -1 else x.
Definition signed_list (invert : bool) (l : list hyp) : list hyp := map (fun h => (fst h, signed invert (snd h))) l.

(** kbest_mira.cc:119-122, 144-160 UpdateOracles with a k-best list: current best, good and bad *)
Definition update_kbest (invert : bool) (l : list hyp) (good : option hyp) : option hyp * (option hyp * option hyp) :=
  let l' := signed_list invert l in (hd_error l', oracles l' good None).
(** kbest_mira.cc:119-142: with samples; the score of the current best is not inverted *)
Definition update_samples (invert : bool) (viterbi : hyp) (l : list hyp) (good : option hyp) : option hyp * (option hyp * option hyp) :=
  (Some viterbi, oracles (signed_list invert l) good None).

(** kbest_mira.cc:179-182; a division by 0 gives infinity *)
Definition ApproxEqual (a b : R) : bool :=
  if Req_EM_T a b then true else if Req_EM_T b 0 then false else if Rlt_dec (Rabs (a - b) / Rabs b) (1 / 1000000) then true else false.

(** kbest_mira.cc:293-307: dense: the weights the loss is computed with; lambdas: those which
    are changed. A step of infinite size is limited like any other. *)
Definition update (max_step scale : R) (dense lambdas : vec) (best good bad : hyp) : vec :=
  if ApproxEqual (snd best) (snd good) then lambdas else
  let loss := dot (fst bad) dense - dot (fst good) dense + scale * (snd good - snd bad) in
  if Rlt_dec 0 loss then
    let diff := vsub (fst good) (fst bad) in
    let step := if Req_EM_T (dot diff diff) 0 then max_step else
                if Rlt_dec max_step (loss / dot diff diff) then max_step else loss / dot diff diff in
    vsub (vadd lambdas (vscale step (fst good))) (vscale step (fst bad))
  else lambdas.

(** kbest_mira.cc:235-246: what the loop keeps *)
Record state := St { lambdas : vec; tot : vec; normalizer : nat; dense : vec; cur_sent : nat; goods : nat -> option hyp }.

(** kbest_mira.cc:228-246 *)
Definition start (w : vec) : state := St w w 1 w 0 (fun _ => None).

(** kbest_mira.cc:253-271: lambdas.init_vector(&dense_weights), and at the end of a pass the
    average of the weights is written to dense_weights too *)
Definition begin (corpus : nat) (s : state) : state :=
  if (cur_sent s =? corpus)%nat
  then St (lambdas s) (tot s) (normalizer s) (vdiv (tot s) (INR (normalizer s))) 0 (goods s)
  else St (lambdas s) (tot s) (normalizer s) (lambdas s) (cur_sent s) (goods s).

(** kbest_mira.cc:253-311: one iteration, for sentence order[cur_sent] = id, whose k-best list
    is l; None: the list is empty and a null pointer is read *)
Definition iterate (max_step scale : R) (invert : bool) (corpus : nat) (s : state) (e : nat * list hyp) : option state :=
  let (id, l) := e in
  let s1 := begin corpus s in
  match update_kbest invert l (goods s1 id) with
  | (Some best, (Some good, Some bad)) =>
    let lam := update max_step scale (dense s1) (lambdas s1) best good bad in
    Some (St lam (vadd (tot s1) lam) (S (normalizer s1)) (dense s1) (S (cur_sent s1))
             (fun i => if (i =? id)%nat then Some good else goods s1 i))
  | _ => None
  end.

(** kbest_mira.cc:252-312 *)
Fixpoint run (max_step scale : R) (invert : bool) (corpus : nat) (s : state) (es : list (nat * list hyp)) : option state :=
  match es with
  | [] => Some s
  | e :: es' => match iterate max_step scale invert corpus s e with None => None | Some s' => run max_step scale invert corpus s' es' end
  end.

(** The weights after each iteration (lambdas at line 308). *)
Fixpoint trace (max_step scale : R) (invert : bool) (corpus : nat) (s : state) (es : list (nat * list hyp)) : option (list vec) :=
  match es with
  | [] => Some []
  | e :: es' => match iterate max_step scale invert corpus s e with
                | None => None
                | Some s' => option_map (cons (lambdas s')) (trace max_step scale invert corpus s' es')
                end
  end.

(** kbest_mira.cc:247, 252: lcount <= max_iteration *)
Definition iterations (passes corpus : nat) : nat := S (passes * corpus).
(** kbest_mira.cc:314: weights.mira-final.gz; 315-318: weights.mira-final-avg.gz *)
Definition final (s : state) : vec := dense s.
Definition final_avg (s : state) : vec := vdiv (tot s) (INR (normalizer s)).
