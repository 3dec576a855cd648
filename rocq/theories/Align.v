(** Models of utils/alignment_io.cc (Pharaoh format) and utils/atools.cc
    (alignment combination), on top of the Array2D model.

    Characters are their codes.  [W] is the number of values of [unsigned] and
    [IM] the number of non-negative values of [int] (2^32 and 2^31 in the code);
    [int] overflow, failed assertions and abort() are [None]. *)
From Coq Require Import List Arith ZArith Bool Lia.
From Verif Require Import Array2D.
Import ListNotations.

Notation "'do' x <- e ; f" := (match e with Some x => f | None => None end)
  (at level 200, x pattern, e at level 100, f at level 200).

Fixpoint foldM {S A} (f : S -> A -> option S) (l : list A) (s : S) : option S :=
  match l with [] => Some s | x :: r => do s' <- f s x ; foldM f r s' end.

(** for (i = 0; i < w; ++i) for (j = 0; j < h; ++j): the index pairs visited. *)
Definition cells (w h : nat) : list (nat * nat) :=
  flat_map (fun i => map (fun j => (i, j)) (seq 0 h)) (seq 0 w).

Section AL.
Variables W IM : nat.
Notation grid := (arr bool).
Definition get (a : grid) (i j : nat) : option bool := a_get bool W a i j.
Definition set (a : grid) (i j : nat) (v : bool) : option grid := a_set bool W a i j v.

(** ** alignment_io.cc *)

(** [out << n] for an unsigned: decimal digits, most significant first
    (the iostream library is taken at its specification). *)
Fixpoint show_aux (fuel n : nat) (acc : list nat) : list nat :=
  match fuel with
  | O => acc
  | S f => let acc' := (48 + n mod 10) :: acc in
           if n <? 10 then acc' else show_aux f (n / 10) acc'
  end.
Definition show (n : nat) : list nat := show_aux (S n) n [].

(** alignment_io.cc:65-75 SerializePharaohFormat; the state is (text, need_space). *)
Definition ser_step (a : grid) (s : list nat * bool) (p : nat * nat) : option (list nat * bool) :=
  do b <- get a (fst p) (snd p) ;
  Some (if b : bool
        then (fst s ++ (if snd s then [32] else []) ++ show (fst p) ++ [45] ++ show (snd p), true)
        else s).
Definition serialize (a : grid) : option (list nat) :=
  do s <- foldM (ser_step a) (cells (width_ a) (height_ a)) ([], false) ;
  Some (fst s ++ [10]).

(** alignment_io.cc:5 *)
Definition is_digit (c : nat) : bool := (48 <=? c) && (c <=? 57).

(** alignment_io.cc:16-20 (also 29-33, 44-48, 53-57): read a possibly empty
    run of digits into an [int]. *)
Fixpoint read_num (x : nat) (l : list nat) : option (nat * list nat) :=
  match l with
  | c :: r =>
      if is_digit c then
        let x' := x * 10 + (c - 48) in
        if x' <? IM then read_num x' r else None
      else Some (x, l)
  | [] => Some (x, [])
  end.
(** alignment_io.cc:35, 59 *)
Fixpoint skip_spaces (l : list nat) : list nat :=
  match l with c :: r => if c =? 32 then skip_spaces r else l | [] => [] end.

(** alignment_io.cc:13-36: the points in the order in which they are read.  The
    loop is run twice over the same text with the same control flow (13-36 to
    find the largest indices, 41-60 to set the cells); it is transcribed once
    and its list of points used twice. *)
Fixpoint read_points (fuel : nat) (l : list nat) : option (list (nat * nat)) :=
  match l with
  | [] => Some []
  | c :: _ =>
      if (c =? 10) || (c =? 13) then Some [] else
      match fuel with
      | O => None
      | S f =>
          do (x, l1) <- read_num 0 l ;
          match l1 with
          | [] => None                        (* line 22: assert *)
          | d :: l2 =>
              if negb (d =? 45) then None     (* lines 23-26: abort *)
              else
                do (y, l3) <- read_num 0 l2 ;
                do ps <- read_points f (skip_spaces l3) ;
                Some ((x, y) :: ps)
          end
      end
  end.

(** " ||| " *)
Definition sep : list nat := [32; 124; 124; 124; 32].
Fixpoint prefixb (p l : list nat) : bool :=
  match p, l with
  | [], _ => true
  | x :: p', y :: l' => (x =? y) && prefixb p' l'
  | _, [] => false
  end.
(** al.rfind(" ||| "): the last position where it occurs; lines 11-12 and 40
    continue behind it (from the start if there is none). *)
Fixpoint after_last_sep (l : list nat) : option (list nat) :=
  match l with
  | [] => None
  | _ :: r => match after_last_sep r with
              | Some s => Some s
              | None => if prefixb sep l then Some (skipn 5 l) else None
              end
  end.
Definition start_of (al : list nat) : list nat :=
  match after_last_sep al with Some s => s | None => al end.

(** alignment_io.cc:7-63 ReadPharaohAlignmentGrid.  [max_x + 1] is [int]
    arithmetic. *)
Definition read_grid (al : list nat) : option grid :=
  do ps <- read_points (length al) (start_of al) ;
  let mx := fold_left (fun m p => if m <? fst p then fst p else m) ps 0 in
  let my := fold_left (fun m p => if m <? snd p then snd p else m) ps 0 in
  if (mx + 1 <? IM) && (my + 1 <? IM) then
    foldM (fun g p => set g (fst p) (snd p) true) ps (a_new bool W (mx + 1) (my + 1) false)
  else None.

(** ** atools.cc *)

(** atools.cc:26-28 *)
Definition ensure_size (a b x : grid) : grid :=
  a_resize bool W x (Nat.max (width_ a) (width_ b)) (Nat.max (height_ a) (height_ b)) false.

(** atools.cc:29-34; [int] coordinates. *)
Definition safe (a : grid) (i j : Z) : option bool :=
  if ((0 <=? i) && (0 <=? j) && (i <? Z.of_nat (width_ a)) && (j <? Z.of_nat (height_ a)))%Z
  then get a (Z.to_nat i) (Z.to_nat j)
  else Some false.
Definition safe_n (a : grid) (p : nat * nat) : option bool := safe a (Z.of_nat (fst p)) (Z.of_nat (snd p)).

(** atools.cc:86-92 (and 77-84, which also prints) *)
Definition convert (a : grid) : grid := a.

(** atools.cc:94-104; [x] is the (fresh) output grid. *)
Definition invert (a x : grid) : option grid :=
  foldM (fun r p => do v <- get a (snd p) (fst p) ; set r (fst p) (snd p) v)
        (cells (height_ a) (width_ a)) (a_resize bool W x (height_ a) (width_ a) false).

(** atools.cc:106-116 *)
Definition intersect (a b x : grid) : option grid :=
  foldM (fun r p => do u <- safe_n a p ; do v <- safe_n b p ; set r (fst p) (snd p) (u && v))
        (cells (width_ a) (height_ a)) (ensure_size a b x).

(** atools.cc:118-128 *)
Definition union (a b x : grid) : option grid :=
  let x' := ensure_size a b x in
  foldM (fun r p => do u <- safe_n a p ; do v <- safe_n b p ; set r (fst p) (snd p) (u || v))
        (cells (width_ x') (height_ x')) x'.

(** atools.cc:218-222: the members of RefineCommand changed while refining. *)
Record rstate := RS { res_ : grid; is_i : list bool; is_j : list bool }.

Fixpoint bset (l : list bool) (n : nat) (v : bool) : option (list bool) :=
  match l, n with
  | [], _ => None
  | _ :: r, O => Some (v :: r)
  | x :: r, S n' => option_map (cons x) (bset r n' v)
  end.

(** atools.cc:139-143 *)
Definition align (s : rstate) (i j : nat) : option rstate :=
  do r <- set (res_ s) i j true ;
  do ii <- bset (is_i s) i true ;
  do jj <- bset (is_j s) j true ;
  Some (RS r ii jj).

(** atools.cc:131-136 and 227-232: the neighbours of RefineCommand followed by
    those of DiagCommand (all three grow commands derive from the latter). *)
Definition neighbors_ : list (Z * Z) :=
  [(1, 0); (-1, 0); (0, 1); (0, -1); (1, 1); (-1, 1); (1, -1); (-1, -1)]%Z.

(** atools.cc:145-153 *)
Fixpoint any_neighbor (s : rstate) (i j : nat) (nb : list (Z * Z)) : option bool :=
  match nb with
  | [] => Some false
  | (di, dj) :: r =>
      do b <- safe (res_ s) (Z.of_nat i + di) (Z.of_nat j + dj) ;
      if b : bool then Some true else any_neighbor s i j r
  end.
Definition is_neighbor_aligned (s : rstate) (i j : nat) : option bool := any_neighbor s i j neighbors_.

(** atools.cc:155-157 *)
Definition is_neither_aligned (s : rstate) (i j : nat) : option bool :=
  do u <- nth_error (is_i s) i ; do v <- nth_error (is_j s) j ; Some (negb (u || v)).
(** atools.cc:159-161 *)
Definition is_one_or_both_unaligned (s : rstate) (i j : nat) : option bool :=
  do u <- nth_error (is_i s) i ; do v <- nth_error (is_j s) j ; Some (negb (u && v)).
(** atools.cc:163-165 *)
Definition koehn_aligned (s : rstate) (i j : nat) : option bool :=
  do b <- is_one_or_both_unaligned s i j ;
  if b : bool then is_neighbor_aligned s i j else Some false.

(** atools.cc:170-186 InitRefine: from an arbitrary earlier state; returns the
    new state and un_.  in_ is only read back at the cell just written. *)
Definition init_refine (prev : rstate) (prev_un : grid) (a b : grid) : option (rstate * grid) :=
  let r := ensure_size a b (a_clear bool (res_ prev)) in
  let un := ensure_size a b (a_clear bool prev_un) in
  foldM (fun su p =>
           do u <- safe_n a p ; do v <- safe_n b p ;
           do un' <- set (snd su) (fst p) (snd p) (u || v) ;
           if (u && v) : bool then do s' <- align (fst su) (fst p) (snd p) ; Some (s', un')
           else Some (fst su, un'))
        (cells (width_ r) (height_ r))
        (RS r (repeat false (width_ r)) (repeat false (height_ r)), un).

(** atools.cc:190-197: Grow with idempotent = true. *)
Definition grow_once (pred : rstate -> nat -> nat -> option bool) (adds : grid) (s : rstate) : option rstate :=
  foldM (fun s p =>
           do u <- get adds (fst p) (snd p) ;
           if u : bool then
             do v <- get (res_ s) (fst p) (snd p) ;
             if v : bool then Some s
             else do c <- pred s (fst p) (snd p) ;
                  if c : bool then align s (fst p) (snd p) else Some s
           else Some s)
        (cells (width_ adds) (height_ adds)) s.

(** atools.cc:207-213: one pass over the pending points; returns the new state
    and the points that are not erased from the set by lines 214-215. *)
Fixpoint grow_pass (pred : rstate -> nat -> nat -> option bool) (s : rstate) (p : list (nat * nat))
  : option (rstate * list (nat * nat)) :=
  match p with
  | [] => Some (s, [])
  | (i, j) :: r =>
      do c <- pred s i j ;
      if c : bool then do s' <- align s i j ; grow_pass pred s' r
      else do (s', q) <- grow_pass pred s r ; Some (s', (i, j) :: q)
  end.
(** atools.cc:203-216: keep_going holds iff something was added. *)
Fixpoint grow_loop (fuel : nat) (pred : rstate -> nat -> nat -> option bool) (s : rstate) (p : list (nat * nat))
  : option rstate :=
  match fuel with
  | O => None
  | S f =>
      match p with
      | [] => Some s
      | _ => do (s', q) <- grow_pass pred s p ;
             if length q <? length p then
               match q with
               | [] => Some s'     (* one more pass over the empty set *)
               | _ => grow_loop f pred s' q
               end
             else Some s'
      end
  end.
(** atools.cc:198-217: the std::set is ordered by (first, second), which is the
    order in which lines 199-202 insert. *)
Definition pending (adds : grid) (s : rstate) : option (list (nat * nat)) :=
  foldM (fun acc p =>
           do u <- get adds (fst p) (snd p) ;
           if u : bool then
             do v <- get (res_ s) (fst p) (snd p) ;
             if v : bool then Some acc else Some (acc ++ [p])
           else Some acc)
        (cells (width_ adds) (height_ adds)) [].
Definition grow (pred : rstate -> nat -> nat -> option bool) (adds : grid) (s : rstate) : option rstate :=
  do p <- pending adds s ;
  grow_loop (S (length p)) pred s p.

(** atools.cc:235-242, 244-253, 255-264 *)
Definition grow_diag (prev : rstate) (prev_un a b : grid) : option grid :=
  do (s, un) <- init_refine prev prev_un a b ;
  do s1 <- grow koehn_aligned un s ;
  Some (res_ s1).
Definition grow_diag_final (prev : rstate) (prev_un a b : grid) : option grid :=
  do (s, un) <- init_refine prev prev_un a b ;
  do s1 <- grow koehn_aligned un s ;
  do s2 <- grow_once is_one_or_both_unaligned a s1 ;
  do s3 <- grow_once is_one_or_both_unaligned b s2 ;
  Some (res_ s3).
Definition grow_diag_final_and (prev : rstate) (prev_un a b : grid) : option grid :=
  do (s, un) <- init_refine prev prev_un a b ;
  do s1 <- grow koehn_aligned un s ;
  do s2 <- grow_once is_neither_aligned a s1 ;
  do s3 <- grow_once is_neither_aligned b s2 ;
  Some (res_ s3).

(** atools.cc:39-59 FMeasureCommand::Apply: (matches, num_predicted, num_in_ref). *)
Definition fm_ref (hyp ref : grid) (s : nat * nat * nat) (p : nat * nat) : option (nat * nat * nat) :=
  do u <- get ref (fst p) (snd p) ;
  if u : bool then
    do v <- safe_n hyp p ;
    let '(m, np, nr) := s in Some (if v : bool then (S m, np, S nr) else (m, np, S nr))
  else Some s.
Definition fm_hyp (hyp : grid) (s : nat * nat * nat) (p : nat * nat) : option (nat * nat * nat) :=
  do u <- get hyp (fst p) (snd p) ;
  let '(m, np, nr) := s in Some (if u : bool then (m, S np, nr) else (m, np, nr)).
Definition fmeasure (s : nat * nat * nat) (hyp ref : grid) : option (nat * nat * nat) :=
  do s1 <- foldM (fm_ref hyp ref) (cells (width_ ref) (height_ ref)) s ;
  foldM (fm_hyp hyp) (cells (width_ hyp) (height_ hyp)) s1.
End AL.
