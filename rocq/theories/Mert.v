(** Model of training/dpmert/mert_geometry.h and mert_geometry.cc: the upper
    envelopes of lines over which MERT computes.

    A double is a rational or an infinity: rounding is not modelled.  A point
    (mert_geometry.h 14-42) is its x, slope, intercept and its provenance, which
    stands for the fields p1, p2 and edge: both parents null and no edge (PNone),
    an edge, or two parents.  std::sort is a parameter [srt].  A hull is its flag
    is_sorted and its vector of points; points are values here, in [HeapHull]
    below they are objects reached through shared pointers, as in the code. *)
From Coq Require Import List Arith QArith Bool.
From Verif Require Import HG.
Import ListNotations.
Open Scope Q_scope.

(** mert_geometry.h 11-12 *)
Inductive ex := MInf | Fin (q : Q) | PInf.
Definition Qltb (a b : Q) : bool := match a ?= b with Lt => true | _ => false end.
Definition ltx (a b : ex) : bool :=
  match a, b with
  | MInf, MInf => false | MInf, _ => true
  | Fin _, MInf => false | Fin p, Fin q => Qltb p q | Fin _, PInf => true
  | PInf, _ => false
  end.

Inductive prov := PNone | PEdge (e : nat) | PPair (p1 p2 : prov).
Record pt := { px : ex; pm : Q; pb : Q; pp : prov }.
Definition set_x (x : ex) (p : pt) : pt := {| px := x; pm := pm p; pb := pb p; pp := pp p |}.
Record hull := { is_sorted : bool; points : list pt }.

(** mert_geometry.cc 73 *)
Definition cross (l p : pt) : Q := (pb l - pb p) / (pm p - pm l).
(** mert_geometry.cc 72-79: [st] is points[0..j), the last one first. *)
Fixpoint pop_push (l : pt) (st : list pt) : list pt :=
  match st with
  | [] => [set_x MInf l]
  | p :: r => if ltx (px p) (Fin (cross l p)) then set_x (Fin (cross l p)) l :: st else pop_push l r
  end.
(** mert_geometry.cc 63-80 *)
Definition sort_step (st : list pt) (l : pt) : list pt :=
  match st with
  | [] => [set_x MInf l]
  | p :: r =>
    if Qeq_bool (pm p) (pm l) then if Qle_bool (pb l) (pb p) then st else pop_push l r
    else pop_push l st
  end.
Definition sort_loop (ps : list pt) : list pt := rev (fold_left sort_step ps []).

Section H.
Variable srt : list pt -> list pt.
(** mert_geometry.cc 59-83 *)
Definition Sort (ps : list pt) : list pt := sort_loop (srt ps).
(** mert_geometry.h 58-61; also "if (!is_sorted) Sort()" elsewhere *)
Definition segs (h : hull) : list pt := if is_sorted h then points h else Sort (points h).
(** mert_geometry.h 48 *)
Definition zero : hull := {| is_sorted := true; points := [] |}.
(** mert_geometry.cc 8-14; x is 0, and is_sorted is not initialised: [u]. *)
Definition one (u : bool) : hull := {| is_sorted := u; points := [{| px := Fin 0; pm := 0; pb := 0; pp := PNone |}] |}.
(** mert_geometry.h 56-57 *)
Definition is_one (h : hull) : bool :=
  match points h with [p] => Qeq_bool (pb p) 0 && Qeq_bool (pm p) 0 && match pp p with PNone => true | _ => false end | _ => false end.
(** mert_geometry.cc 44-57 *)
Definition plus (this other : hull) : hull :=
  match points this with
  | [] => {| is_sorted := is_sorted this; points := segs other |}
  | _ => {| is_sorted := false; points := points this ++ segs other |}
  end.
(** mert_geometry.cc 118-119, 134-135, 140, 144 *)
Definition next_x (r : list pt) : ex := match r with [] => PInf | p :: _ => px p end.
(** mert_geometry.cc 115-147 *)
Fixpoint merge (s1 s2 : list pt) (cur : ex) {struct s1} : list pt :=
  match s1 with
  | [] => []
  | p :: r1 =>
    (fix inner (s2 : list pt) (cur : ex) {struct s2} : list pt :=
      match s2 with
      | [] => []
      | q :: r2 =>
        {| px := cur; pm := pm p + pm q; pb := pb p + pb q; pp := PPair (pp p) (pp q) |} ::
        (if ltx (next_x r1) (next_x r2) then merge r1 s2 (next_x r1)
         else if ltx (next_x r2) (next_x r1) then inner r2 (next_x r2)
         else merge r1 r2 (next_x r1))
      end) s2 cur
  end.
(** mert_geometry.cc 92-106; h 65-66 *)
Definition times_pts (s1 s2 : list pt) : list pt :=
  match s1 with
  | [ {| px := _; pm := m; pb := b; pp := PEdge e |} ] =>
    map (fun p => {| px := px p; pm := pm p + m; pb := pb p + b; pp := PPair (PEdge e) (pp p) |}) s2
  | _ => merge s1 s2 MInf
  end.
(** mert_geometry.cc 85-152 *)
Definition times (this other : hull) : hull :=
  if is_one other then this
  else if is_one this then other
  else {| is_sorted := true; points := times_pts (segs this) (segs other) |}.
End H.

(** mert_geometry.cc 20-25; [dir] and [ori] are the dot products of direction
    and origin with the edge's features, [id] its id. *)
Definition edge_hull {P : Type} (dir ori : edge P -> Q) (e : edge P) : hull :=
  {| is_sorted := true; points := [ {| px := MInf; pm := dir e; pb := ori e; pp := PEdge (eid e) |} ] |}.

(** mert_geometry.cc 155-169.  [ants] are the translations collected so far, in
    the order in which line 167 puts them.  A null pointer followed, or a failed
    assertion (165), is [None].  [traverse] is ESubstitute. *)
Section T.
Context {P Y : Type}.
Variable g : hg P.
Variable traverse : edge P -> list Y -> Y.
Fixpoint translation (p : prov) (ants : list Y) : option Y :=
  match p with
  | PNone => None
  | PEdge e =>
    match nth_error (edges g) e with
    | Some ed => if Nat.eqb (length ants) (length (tails ed)) then Some (traverse ed ants) else None
    | None => None
    end
  | PPair p1 p2 => match translation p2 [] with Some y => translation p1 (y :: ants) | None => None end
  end.
Definition ConstructTranslation (p : pt) : option Y := translation (pp p) [].
(** mert_geometry.cc 171-178; an index out of range (173) is [None]. *)
Fixpoint collect (p : prov) (used : list bool) : option (list bool) :=
  match p with
  | PNone => Some used
  | PEdge e => upd used e (fun _ => true)
  | PPair p1 p2 => match collect p1 used with Some u => collect p2 u | None => None end
  end.
Definition CollectEdgesUsed (p : pt) (used : list bool) : option (list bool) := collect (pp p) used.
End T.

(** The same with points in a heap: [points] is a vector of pointers, Sort and
    += copy pointers and Sort writes through them (mert_geometry.cc 54, 79).
    An access to a missing object is [None]. *)
Module HeapHull.
Definition ptr := nat.
Record hhull := { h_sorted : bool; h_points : list ptr }.
Section HH.
(** std::sort of the pointers, by the slopes of the objects *)
Variable psort : list pt -> list ptr -> list ptr.
(** 72-78: from j down; the new j and x *)
Fixpoint find_j (h : list pt) (ps : list ptr) (l : pt) (j : nat) : option (nat * ex) :=
  match j with
  | O => Some (O, MInf)
  | S i =>
    match nth_error ps i with
    | Some a =>
      match nth_error h a with
      | Some p => if ltx (px p) (Fin (cross l p)) then Some (j, Fin (cross l p)) else find_j h ps l i
      | None => None
      end
    | None => None
    end
  end.
(** 64-79: the new heap and j *)
Definition heap_step (h : list pt) (ps : list ptr) (i j : nat) : option (list pt * nat) :=
  match nth_error ps i with
  | None => None
  | Some a =>
    match nth_error h a with
    | None => None
    | Some l =>
      let write (r : option (nat * ex)) :=
        match r with
        | Some (j', x) =>
          match nth_error ps j' with
          | Some t => match upd h t (fun _ => set_x x l) with Some h' => Some (h', S j') | None => None end
          | None => None
          end
        | None => None
        end in
      match j with
      | O => write (Some (O, MInf))
      | S k =>
        match nth_error ps k with
        | None => None
        | Some c =>
          match nth_error h c with
          | None => None
          | Some p =>
            if Qeq_bool (pm p) (pm l) then if Qle_bool (pb l) (pb p) then Some (h, j) else write (find_j h ps l k)
            else write (find_j h ps l j)
          end
        end
      end
    end
  end.
Fixpoint heap_loop (h : list pt) (ps : list ptr) (i n j : nat) : option (list pt * nat) :=
  match n with
  | O => Some (h, j)
  | S n' => match heap_step h ps i j with Some (h', j') => heap_loop h' ps (S i) n' j' | None => None end
  end.
(** 59-83 *)
Definition heap_Sort (h : list pt) (c : hhull) : option (list pt * hhull) :=
  let ps := psort h (h_points c) in
  match heap_loop h ps 0 (length ps) 0 with
  | Some (h', j) => Some (h', {| h_sorted := true; h_points := firstn j ps |})
  | None => None
  end.
Definition heap_segs (h : list pt) (c : hhull) : option (list pt * hhull) := if h_sorted c then Some (h, c) else heap_Sort h c.
(** 44-57; this and other are different objects; both are returned *)
Definition heap_plus (h : list pt) (this other : hhull) : option (list pt * hhull * hhull) :=
  match heap_segs h other with
  | Some (h', o) =>
    Some (h', match h_points this with
              | [] => {| h_sorted := h_sorted this; h_points := h_points o |}
              | _ => {| h_sorted := false; h_points := h_points this ++ h_points o |}
              end, o)
  | None => None
  end.
(** What a hull's pointers point to. *)
Definition deref (h : list pt) (ps : list ptr) : option (list pt) :=
  fold_right (fun a r => match nth_error h a, r with Some p, Some l => Some (p :: l) | _, _ => None end) (Some []) ps.
End HH.
End HeapHull.
