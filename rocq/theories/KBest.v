(** Model of lazy k-best extraction, decoder/kbest.h 44-241.

    A derivation object (56-75) is its edge, the vector [j] of ranks of its
    antecedents and its score; its yield is kept beside it once it is computed.
    The feature vectors and the list of objects to free are left out.  The heap
    functions and nth_element of the C++ library are parameters: [hpop] is
    pop_heap followed by back and pop_back, [hpush] push_back and push_heap,
    [hmake n] nth_element, resize to n and make_heap.  [uniq] tells whether the
    filter is FilterUnique (29-35) or NoFilter (21-26).

    Recursion goes from a node to tails of its in-edges; [depth] bounds it, and
    [F] bounds the inner loop (143-160).  A failed assertion, a null pointer
    which is followed, an access out of bounds and exhausted fuel are [None]. *)
From Coq Require Import List Arith Bool.
From Verif Require Import HG Cube.
Import ListNotations.

Record deriv {W : Type} := { de : nat; dj : list nat; score : W }.
Arguments deriv : clear implicits.
(** 122-128 *)
Record nstate {W Y : Type} := { cands : list (deriv W); D : list (deriv W * Y); dset : list (nat * list nat); filt : list Y }.
Arguments nstate : clear implicits.

Section K.
Context {P W Y : Type}.
Variable times : W -> W -> W.
Variable w : edge P -> W.
Variable traverse : edge P -> list Y -> Y.
Variable eqY : Y -> Y -> bool.
Variable uniq : bool.
Variable hpop : list (deriv W) -> option (deriv W * list (deriv W)).
Variable hpush : list (deriv W) -> deriv W -> list (deriv W).
Variable hmake : nat -> list (deriv W) -> list (deriv W).
Variable g : hg P.
Variable k_prime : nat.
Variable F : nat.

Definition state := list (nstate W Y).
Definition push_D (x : deriv W * Y) (s : nstate W Y) : nstate W Y := {| cands := cands s; D := D s ++ [x]; dset := dset s; filt := filt s |}.
Definition set_cands (l : list (deriv W)) (s : nstate W Y) : nstate W Y := {| cands := l; D := D s; dset := dset s; filt := filt s |}.
Definition push_cand (d : deriv W) (s : nstate W Y) : nstate W Y :=
  {| cands := hpush (cands s) d; D := D s; dset := (de d, dj d) :: dset s; filt := filt s |}.
Definition add_filt (y : Y) (s : nstate W Y) : nstate W Y := {| cands := cands s; D := D s; dset := dset s; filt := y :: filt s |}.
Definition add_last (d : deriv W) (s : nstate W Y) : nstate W Y := {| cands := cands s ++ [d]; D := D s; dset := dset s; filt := filt s |}.

Section Level.
Variable rec : nat -> nat -> state -> option (option (deriv W * Y) * state).

(** 175-180 *)
Fixpoint create_loop (ts js : list nat) (sc : W) (st : state) : option (option W * state) :=
  match ts, js with
  | [], _ => Some (Some sc, st)
  | t :: ts', x :: js' =>
    match rec t x st with
    | Some (Some (ant, _), st') => create_loop ts' js' (times sc (score ant)) st'
    | Some (None, st') => Some (None, st')
    | None => None
    end
  | _ :: _, [] => None
  end.
(** 172-183 *)
Definition create (e : nat) (ed : edge P) (j : list nat) (st : state) : option (option (deriv W) * state) :=
  match create_loop (tails ed) j (w ed) st with
  | Some (Some sc, st') => Some (Some {| de := e; dj := j; score := sc |}, st')
  | Some (None, st') => Some (None, st')
  | None => None
  end.
(** 190-196 *)
Fixpoint init_loop (v : nat) (es : list nat) (st : state) : option state :=
  match es with
  | [] => Some st
  | e :: r =>
    match nth_error (edges g) e with
    | Some ed =>
      match create e ed (map (fun _ => 0) (tails ed)) st with
      | Some (Some d, st') => match upd st' v (add_last d) with Some st'' => init_loop v r st'' | None => None end
      | _ => None
      end
    | None => None
    end
  end.
(** 185-209 *)
Definition get_candidates (v : nat) (st : state) : option state :=
  match nth_error st v, nth_error (nodes g) v with
  | Some s, Some nd =>
    match D s, cands s with
    | [], [] =>
      match init_loop v (in_edges nd) st with
      | Some st' =>
        upd st' v (fun s => let n := length (cands s) in set_cands (hmake (if uniq then n else Nat.min k_prime n) (cands s)) s)
      | None => None
      end
    | _, _ => Some st
    end
  | _, _ => None
  end.
(** 212-232 *)
Fixpoint next_loop (v e : nat) (ed : edge P) (j : list nat) (is : list nat) (st : state) : option state :=
  match is with
  | [] => Some st
  | i :: r =>
    let j' := incr i j in
    match nth_error (tails ed) i, nth_error j' i with
    | Some t, Some x =>
      match rec t x st with
      | None => None
      | Some (None, st1) => next_loop v e ed j r st1
      | Some (Some _, st1) =>
        match nth_error st1 v with
        | None => None
        | Some s =>
          if mem (e, j') (dset s) then next_loop v e ed j r st1
          else match create e ed j' st1 with
               | None => None
               | Some (None, st2) => next_loop v e ed j r st2
               | Some (Some d, st2) =>
                 match upd st2 v (push_cand d) with Some st3 => next_loop v e ed j r st3 | None => None end
               end
        end
      end
    | _, _ => None
    end
  end.
(** 211-233 *)
Definition lazy_next (v : nat) (d : deriv W) (st : state) : option state :=
  match nth_error (edges g) (de d) with
  | Some ed => next_loop v (de d) ed (dj d) (seq 0 (length (dj d))) st
  | None => None
  end.
(** 147-149 *)
Fixpoint yields (ts js : list nat) (st : state) : option (list Y * state) :=
  match ts, js with
  | [], _ => Some ([], st)
  | t :: ts', x :: js' =>
    match rec t x st with
    | Some (Some (_, y), st') => match yields ts' js' st' with Some (l, st'') => Some (y :: l, st'') | None => None end
    | _ => None
    end
  | _ :: _, [] => None
  end.
(** 143-160; the result is [add_next] *)
Fixpoint inner (fuel : nat) (v : nat) (st : state) : option (bool * state) :=
  match fuel with
  | O => None
  | S f =>
    match nth_error st v with
    | None => None
    | Some s =>
      match cands s with
      | [] => Some (false, st)
      | _ :: _ =>
        match hpop (cands s) with
        | None => None
        | Some (d, rest) =>
          match upd st v (set_cands rest), nth_error (edges g) (de d) with
          | Some st1, Some ed =>
            match yields (tails ed) (dj d) st1 with
            | None => None
            | Some (ys, st2) =>
              let y := traverse ed ys in
              match nth_error st2 v with
              | None => None
              | Some s2 =>
                if uniq && existsb (eqY y) (filt s2)
                then match lazy_next v d st2 with Some st3 => inner f v st3 | None => None end
                else match upd st2 v (fun s => push_D (d, y) (if uniq then add_filt y s else s)) with
                     | Some st3 => Some (true, st3)
                     | None => None
                     end
              end
            end
          | _, _ => None
          end
        end
      end
    end
  end.
(** 136-163; at the head of the loop add_next is always true *)
Fixpoint outer (fuel : nat) (v k : nat) (st : state) : option state :=
  match fuel with
  | O => None
  | S f =>
    match nth_error st v with
    | None => None
    | Some s =>
      if length (D s) <=? k then
        match (match rev (D s) with [] => Some st | (d, _) :: _ => lazy_next v d st end) with
        | None => None
        | Some st1 =>
          match inner F v st1 with
          | None => None
          | Some (true, st2) => outer f v k st2
          | Some (false, st2) => Some st2
          end
        end
      else Some st
    end
  end.
End Level.

(** 130-165 *)
Fixpoint kth (depth : nat) (v k : nat) (st : state) : option (option (deriv W * Y) * state) :=
  match depth with
  | O => None
  | S d =>
    match get_candidates (kth d) v st with
    | None => None
    | Some st1 =>
      match outer (kth d) (S (S k)) v k st1 with
      | None => None
      | Some st2 => match nth_error st2 v with Some s => Some (nth_error (D s) k, st2) | None => None end
      end
    end
  end.
Definition LazyKthBest (v k : nat) (st : state) := kth (S (length (nodes g))) v k st.
(** 49 *)
Definition new : state := map (fun _ => {| cands := []; D := []; dset := []; filt := [] |}) (nodes g).
(** Successive calls. *)
Fixpoint calls (cs : list (nat * nat)) (st : state) : option (list (option (deriv W * Y)) * state) :=
  match cs with
  | [] => Some ([], st)
  | (v, k) :: r =>
    match LazyKthBest v k st with
    | Some (x, st') => match calls r st' with Some (l, st'') => Some (x :: l, st'') | None => None end
    | None => None
    end
  end.
End K.
