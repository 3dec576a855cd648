(** Model of the sampling of training pairs of PRO (training/pro/mr_pro_map.cc).
    Simplified: floats and doubles are the real numbers; a sparse vector is the list of its
    values for the features 0, 1, ..., all lists of the same length; the score of a
    candidate under the metric is a field of it. The random numbers are given: the results
    hold for all of them. partial_sort is the relation of the results it may have. *)
From Coq Require Import Reals List Arith Bool Permutation Sorting.
From Verif Require Import Mira.
Import ListNotations.
Local Open Scope R_scope.

(** candidate_set.h:15-41; score: metric->ComputeScore(eval_feats) *)
Record cand := Cand { ewords : list nat; fmap : vec; score : R }.
(** mr_pro_map.cc:68-78 TrainingInstance *)
Record inst := Inst { x : vec; y : bool; gdiff : R }.

Section Sample.
Variable J : nat -> option cand.   (* J_i[.] *)
Variable invert_score : bool.      (* metric->IsErrorMetric() *)

Definition len (c : cand) : R := INR (length (ewords c)).

(** mr_pro_map.cc:91-102 LengthDifferenceStdDev: the loop, given the draws of a and b; None: it
    needs more draws, or reads outside the set; otherwise the sum and the draws left *)
Fixpoint length_loop (n : nat) (draws : list (nat * nat)) (sum : R) : option (R * list (nat * nat)) :=
  match n with
  | O => Some (sum, draws)
  | S n' =>
    (fix go (draws : list (nat * nat)) : option (R * list (nat * nat)) :=
      match draws with
      | [] => None
      | (a, b) :: draws' =>
        if (a =? b)%nat then go draws' else
        match J a, J b with
        | Some ca, Some cb => length_loop n' draws' (sum + (len ca - len cb) * (len ca - len cb))
        | _, _ => None
        end
      end) draws
  end.
Definition LengthDifferenceStdDev (n : nat) (draws : list (nat * nat)) : option (R * list (nat * nat)) :=
  match length_loop n draws 0 with
  | None => None
  | Some (sum, draws') => Some (Rmax (sqrt (sum / INR n)) 2, draws')
  end.

(** mr_pro_map.cc:113, 118-120 *)
Definition z_score_threshold : R := 2.
Definition z_score (sd : R) (a b : cand) : R := Rabs ((len a - len b) / sd).

(** xdiff.empty() after erase_zeros (mr_pro_map.cc:130-131) *)
Definition zero_vec (v : vec) : bool := forallb (fun r => if Req_EM_T r 0 then true else false) v.

(** mr_pro_map.cc:114-142: the first loop: the instances v1 and avg_diff before the division *)
Fixpoint first_loop (gamma : nat) (sd : R) (draws : list (nat * nat)) (v1 : list inst) (avg : R) : option (list inst * R) :=
  match gamma with
  | O => Some (v1, avg)
  | S gamma' =>
    (fix go (draws : list (nat * nat)) : option (list inst * R) :=
      match draws with
      | [] => None
      | (a, b) :: draws' =>
        if (a =? b)%nat then go draws' else
        match J a, J b with
        | Some ca, Some cb =>
          if Rlt_dec z_score_threshold (z_score sd ca cb) then go draws' else
          let ga := score ca in
          let gb := score cb in
          let positive := if Rlt_dec gb ga then true else false in
          let positive := if invert_score then negb positive else positive in
          let gd := Rabs (ga - gb) in
          if Req_EM_T gd 0 then first_loop gamma' sd draws' v1 avg else
          let xdiff := vsub (fmap ca) (fmap cb) in
          if zero_vec xdiff then first_loop gamma' sd draws' v1 (avg + gd)
          else first_loop gamma' sd draws' (v1 ++ [Inst xdiff positive gd]) (avg + gd)
        | _, _ => None
        end
      end) draws
  end.

(** mr_pro_map.cc:145-149: the second loop, u: the numbers rng->next() returns *)
Fixpoint second_loop (avg : R) (v1 : list inst) (u : nat -> R) : list inst :=
  match v1 with
  | [] => []
  | i :: v1' =>
    let p := 1 / (1 + exp (- avg - gdiff i)) in
    let rest := second_loop avg v1' (fun n => u (S n)) in
    if Rlt_dec (u 0%nat) p then i :: rest else rest
  end.

(** mr_pro_map.cc:150-153: partial_sort and copy *)
Definition partial_sort (xi : nat) (v2 out : list inst) : Prop :=
  exists rest, Permutation v2 (out ++ rest) /\ length out = Nat.min xi (length v2) /\
    StronglySorted (fun a b => gdiff b <= gdiff a) out /\ (forall a b, In a out -> In b rest -> gdiff b <= gdiff a).

(** mr_pro_map.cc:104-162 Sample (5000 for n in the code) *)
Definition Sample (n gamma xi : nat) (draws : list (nat * nat)) (u : nat -> R) (out : list inst) : Prop :=
  exists sd draws' v1 total, LengthDifferenceStdDev n draws = Some (sd, draws') /\
    first_loop gamma sd draws' [] 0 = Some (v1, total) /\
    partial_sort xi (second_loop (total / INR (length v1)) v1 u) out.
End Sample.

(** mr_pro_map.cc:212-216: the lines written: label and features *)
Definition written (v : list inst) : list (bool * vec) :=
  flat_map (fun i => [(y i, x i); (negb (y i), vscale (-1) (x i))]) v.
