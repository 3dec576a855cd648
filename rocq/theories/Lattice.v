(** decoder/lattice.cc and lattice.h: distances in a lattice.
    A lattice is the list of its positions, a position the list of the dist2next of its
    arcs (labels and features play no role here).  The distance table is the data vector
    of an Array2D<int> (utils/array2d.h 23-27, 37-39, 73-78); [None]: one of its asserts
    fails.  Simplification: unsigned and int are unbounded (the product of width and height
    does not wrap for lattices of fewer than 65535 positions, sums are at most twice
    kUNREACHABLE). *)
From Coq Require Import List ZArith Bool.
From Verif Require Import Opt.
Import ListNotations.
Open Scope Z_scope.
Open Scope opt_scope.

(** lattice.cc 8 *)
Definition kUNREACHABLE : Z := 99999999.
(** array2d.h 37-43, 73-77, for width and height n *)
Definition cell (n : Z) (d : list Z) (i j : Z) : option Z :=
  if andb (andb (0 <=? i) (i <? n)) (andb (0 <=? j) (j <? n)) then get d (i + j * n) else None.
Definition set_cell (n : Z) (d : list Z) (i j v : Z) : option (list Z) :=
  if andb (andb (0 <=? i) (i <? n)) (andb (0 <=? j) (j <? n)) then put d (i + j * n) v else None.
(** array2d.h 23-27: vector::resize keeps the old elements *)
Definition resize (d : list Z) (k : nat) (v : Z) : list Z := firstn k d ++ repeat v (k - length d).
(** 15-16 *)
Fixpoint set_arcs (n : Z) (i : Z) (alts : list Z) (d : list Z) : option (list Z) :=
  match alts with [] => Some d | a :: r => d' <- set_cell n d i (i + a) 1 ;; set_arcs n i r d' end.
(** 13-17 *)
Fixpoint set_all (n : Z) (i : Z) (lat : list (list Z)) (d : list Z) : option (list Z) :=
  match lat with [] => Some d | alts :: r => d' <- set_arcs n i alts d ;; set_all n (i + 1) r d' end.
(** 21-23 *)
Definition relax (n k i : Z) (j : Z) (d : list Z) : option (list Z) :=
  a <- cell n d i k ;; b <- cell n d k j ;; c <- cell n d i j ;;
  if a + b <? c then set_cell n d i j (a + b) else Some d.
(** 30-36; [k] columns are left, the next one is k - 1 *)
Fixpoint fill_row (n i : Z) (k : nat) (latest : Z) (d : list Z) : option (list Z) :=
  match k with
  | O => Some d
  | S k' =>
      c <- cell n d i (Z.of_nat k') ;;
      if c <? kUNREACHABLE then fill_row n i k' c d
      else d' <- set_cell n d i (Z.of_nat k') latest ;; fill_row n i k' latest d'
  end.
(** ComputeDistances (10-39); [old]: the table before the call *)
Definition ComputeDistances (old : list Z) (lat : list (list Z)) : option (list Z) :=
  let m := S (length lat) in
  let n := Z.of_nat m in
  d1 <- set_all n 0 lat (resize old (m * m) kUNREACHABLE) ;;
  d2 <- for_up m 0 (fun k => for_up m 0 (fun i => for_up m 0 (relax n k i))) d1 ;;
  for_up m 0 (fun i => fill_row n i m kUNREACHABLE) d2.
(** lattice.h 32-36, after ComputeDistances *)
Definition Distance (lat : list (list Z)) (d : list Z) (from to : Z) : option Z :=
  match d with [] => Some (to - from) | _ => cell (Z.of_nat (S (length lat))) d from to end.
