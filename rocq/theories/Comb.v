(** Model of the combination of metrics (mteval/ns_comb.cc), of sums of statistics (mteval/ns.h)
    and of the encoding of combined scores (mteval/comb_scorer.cc).
    Simplified: statistics and scores are reals (float in the code); the metrics combined are
    left open. *)
From Coq Require Import Reals List Arith ZArith.
Import ListNotations.
Local Open Scope R_scope.

Notation stats := (list R).

Section Comb.
Variable H : Type.                          (* hypotheses *)
(** A metric combined: its coefficient, SufficientStatisticsVectorSize, Evaluate, ComputeScore *)
Record metric := Metric { coeff : R; size : nat; evaluate : H -> stats; compute : stats -> R }.

(** ns_comb.cc:30-31: offsets and total_size *)
Fixpoint offsets (ms : list metric) (total : nat) : list nat :=
  match ms with [] => [] | m :: ms' => total :: offsets ms' (total + size m) end.
Definition total_size (ms : list metric) : nat := fold_left (fun t m => (t + size m)%nat) ms 0%nat.

Fixpoint set_field (o : stats) (k : nat) (v : R) : stats :=
  match o, k with [] , _ => [] | _ :: o', 0%nat => v :: o' | x :: o', S k' => x :: set_field o' k' v end.
(** ns_comb.cc:52-56; None: the assert *)
Fixpoint put (t : stats) (j off : nat) (o : stats) : option stats :=
  match t with
  | [] => Some o
  | v :: t' => let op := (j + off)%nat in if (op <? length o)%nat then put t' (S j) off (set_field o op v) else None
  end.
Fixpoint put_all (ms : list metric) (offs : list nat) (h : H) (o : stats) : option stats :=
  match ms, offs with
  | m :: ms', off :: offs' => match put (evaluate m h) 0 off o with Some o' => put_all ms' offs' h o' | None => None end
  | _, _ => Some o
  end.
(** ns_comb.cc:46-58 Evaluate, into new statistics *)
Definition Evaluate (ms : list metric) (h : H) : option stats := put_all ms (offsets ms 0) h (repeat 0 (total_size ms)).

(** ns.h:64-67 operator[] *)
Definition field (s : stats) (i : nat) : R := nth i s 0.
(** ns_comb.cc:73-80: metrics from the i-th *)
Fixpoint score_from (ms : list metric) (offs : list nat) (total : nat) (s : stats) (tot : R) : R :=
  match ms, offs with
  | m :: ms', off :: offs' =>
    let next := match offs' with [] => total | o :: _ => o end in
    let t := map (field s) (seq off (next - off)) in
    score_from ms' offs' total s (tot + compute m t * coeff m)
  | _, _ => tot
  end.
(** ns_comb.cc:71-82 ComputeScore *)
Definition ComputeScore (ms : list metric) (s : stats) : R := score_from ms (offsets ms 0) (total_size ms) s 0.
End Comb.

(** ns.h:20-27 operator+= *)
Fixpoint plus_equals (a d : stats) : stats :=
  match a, d with
  | [], _ => d
  | _, [] => a
  | x :: a', y :: d' => (x + y) :: plus_equals a' d'
  end.

(** comb_scorer.cc:52-60, 91-97: a score of two parts as a string; a byte is a number below 256,
    char is signed; substr of a count which is negative takes the rest *)
Definition Encode2 (bs ts : list nat) : list nat := (length bs mod 256)%nat :: bs ++ ts.
Definition signed (c : nat) : Z := if (c <? 128)%nat then Z.of_nat c else (Z.of_nat c - 256)%Z.
Definition substr (s : list nat) (pos : nat) (n : option nat) : option (list nat) :=
  if (length s <? pos)%nat then None else Some (match n with Some k => firstn k (skipn pos s) | None => skipn pos s end).
Definition Decode2 (s : list nat) : option (list nat * list nat) :=
  match s with
  | [] => None
  | c :: _ =>
    let bss := signed c in
    let n := if (bss <? 0)%Z then None else Some (Z.to_nat bss) in
    let from := (1 + bss)%Z in
    match substr s 1 n, (if (from <? 0)%Z then None else substr s (Z.to_nat from) None) with
    | Some b, Some t => Some (b, t)
    | _, _ => None
    end
  end.
