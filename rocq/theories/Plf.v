(** decoder/hg_io.cc: Python lattice format.  Text is a list of bytes.  [None]: abort(), a
    failed assert, undefined behaviour or (never on the texts of the theorems) no end.
    Simplifications: labels are the words themselves (the dictionary is C01); a feature map is
    the list of its entries; [int] and [size_t] do not overflow. *)
From Coq Require Import List ZArith Bool.
From Verif Require Import Opt Utoa.
Import ListNotations.
Open Scope Z_scope.
Open Scope opt_scope.

Definition text := list Z.
Definition ch_space : Z := 32.
Definition ch_quote : Z := 39.
Definition ch_open : Z := 40.
Definition ch_close : Z := 41.
Definition ch_comma : Z := 44.
Definition ch_colon : Z := 58.
Definition ch_slash : Z := 92.
Definition ch_lbrace : Z := 123.
Definition ch_rbrace : Z := 125.

(** needs_escape (33-38); [init]: InitEscapes has been called *)
Definition needs_escape (init : bool) (c : Z) : bool := andb init (orb (c =? ch_quote) (c =? ch_slash)).
(** HypergraphIO::Escape (40-57) *)
Definition Escape (init : bool) (s : text) : text :=
  flat_map (fun c => if andb (c <? 128) (needs_escape init c) then [ch_slash; c] else [c]) s.

Fixpoint text_eqb (a b : text) : bool :=
  match a, b with
  | [], [] => true
  | x :: a', y :: b' => andb (x =? y) (text_eqb a' b')
  | _, _ => false
  end.

(** ** The scanner (122-179) *)
(** get (123-126) *)
Definition look (inp : text) (c : nat) : Z := nth c inp 0.
(** eatws (129-131) *)
Fixpoint leading (p : Z -> bool) (s : text) : nat :=
  match s with x :: r => if p x then S (leading p r) else O | [] => O end.
Definition eatws (inp : text) (c : nat) : nat := (c + leading (Z.eqb ch_space) (skipn c inp))%nat.
(** 143-147; [fuel] bounds the rounds *)
Fixpoint escaped_loop (fuel : nat) (inp : text) (c : nat) (res : text) : option (text * nat) :=
  match fuel with
  | O => None
  | S f =>
      let cur := look inp c in
      let '(res', c') := if cur =? ch_slash then (res ++ [look inp (S c)], S (S c))
                         else if negb (cur =? ch_quote) then (res ++ [cur], S c) else (res, S c) in
      if andb (negb (look inp c' =? ch_quote)) (Nat.ltb c' (length inp)) then escaped_loop f inp c' res'
      else Some (res', c')
  end.
(** getEscapedString (134-151) *)
Definition getEscapedString (inp : text) (c : nat) : option (text * nat) :=
  let c := eatws inp c in
  if negb (look inp c =? ch_quote) then None
  else ' rc <- escaped_loop (S (length inp)) inp (S c) [] ;;
       Some (fst rc, eatws inp (S (snd rc))).
(** the characters of a number (158) *)
Definition num_char (x : Z) : bool :=
  negb (orb (orb (x =? ch_space) (x =? ch_close)) (orb (x =? ch_comma) (x =? ch_rbrace))).

Section Numbers.
(** numbers: [num_of] is atof followed by the conversion to float, [trunc] the conversion of
    a float to size_t (undefined out of range), [show] the output of a double, [zero] 0.0 *)
Variable num : Type.
Variables (num_of : text -> num) (trunc : num -> option Z) (show : num -> text) (zero : num).

(** getFloat (154-167) *)
Definition getFloat (inp : text) (c : nat) : option (num * nat) :=
  let c := eatws inp c in
  let k := leading num_char (skipn c inp) in
  let tmp := firstn k (skipn c inp) in
  match tmp with [] => None | _ => Some (num_of tmp, eatws inp (c + k)%nat) end.

(** ** The parser (184-325) *)
Definition features := list (text * num).
(** features[name] = value *)
Fixpoint put_feature (f : features) (name : text) (v : num) : features :=
  match f with
  | [] => [(name, v)]
  | (n, w) :: r => if text_eqb n name then (n, v) :: r else (n, w) :: put_feature r name v
  end.
(** ReadPLFFeature (184-192) *)
Definition ReadPLFFeature (inp : text) (c : nat) (f : features) : option (features * nat) :=
  let c := eatws inp c in
  ' (name, c) <- getEscapedString inp c ;;
  let c := eatws inp c in
  if negb (look inp c =? ch_colon) then None else
  ' (v, c) <- getFloat inp (S c) ;;
  Some (put_feature f name v, eatws inp c).
(** 214-218 *)
Fixpoint feature_loop (fuel : nat) (inp : text) (c : nat) (f : features) : option (features * nat) :=
  match fuel with
  | O => None
  | S g =>
      if look inp c =? ch_comma then
        if look inp (S c) =? ch_rbrace then Some (f, S c)
        else ' (f', c') <- ReadPLFFeature inp (S c) f ;; feature_loop g inp c' f'
      else Some (f, c)
  end.
(** 228-233 *)
Fixpoint number_loop (fuel : nat) (inp : text) (c : nat) (probs : list num) : option (list num * nat) :=
  match fuel with
  | O => None
  | S g =>
      if look inp c =? ch_comma then
        ' (v, c') <- getFloat inp (S c) ;; number_loop g inp c' (probs ++ [v])
      else Some (probs, c)
  end.
(** std::to_string and the output of an int, for numbers that are not negative *)
Definition decimal (n : Z) : text := match utos 64 false n with Some t => t | None => [] end.
(** "LatticeCost" *)
Definition lattice_cost : text := [76; 97; 116; 116; 105; 99; 101; 67; 111; 115; 116].
(** 240-242 *)
Fixpoint cost_features (i : Z) (probs : list num) (f : features) : features :=
  match probs with
  | [] => f
  | p :: r => cost_features (i + 1) r (put_feature f (lattice_cost ++ 95 :: decimal i) p)
  end.

(** the hypergraph being built: number of nodes, edges (tail, head, label, features); the
    outgoing edges of a node are those whose tail it is, in order (hg.h 342-352, 367-370) *)
Record edge := { e_tail : Z; e_head : Z; e_label : text; e_features : features }.
Record graph := { g_nodes : Z; g_edges : list edge }.
(** 181 *)
Definition MAX_NODES : Z := 100000000.

(** 206-243: features and link length *)
Definition ReadPLFValues (inp : text) (c : nat) : option (features * Z * nat) :=
  if look inp c =? ch_lbrace then
    let c := eatws inp (S c) in
    ' (f, c) <- (if negb (look inp c =? ch_rbrace) then ReadPLFFeature inp c [] else Some ([], c)) ;;
    ' (f, c) <- feature_loop (S (length inp)) inp c f ;;
    if negb (look inp c =? ch_rbrace) then None else
    let c := eatws inp (S c) in
    if negb (look inp c =? ch_comma) then None else
    ' (v, c) <- getFloat inp (S c) ;;
    n <- trunc v ;;
    Some (f, n, c)
  else
    ' (v, c) <- getFloat inp c ;;
    ' (probs, c) <- number_loop (S (length inp)) inp c [v] ;;
    n <- trunc (last probs zero) ;;
    Some (cost_features 0 (removelast probs) [], n, c).
(** ReadPLFEdge (195-257) *)
Definition ReadPLFEdge (inp : text) (c : nat) (cur_node : Z) (g : graph) : option (graph * nat) :=
  if negb (look inp c =? ch_open) then None else
  ' (label, c) <- getEscapedString inp (S c) ;;
  if negb (look inp c =? ch_comma) then None else
  let c := eatws inp (S c) in
  ' (fn, c) <- ReadPLFValues inp c ;;
  if negb (look inp c =? ch_close) then None else
  let cnNext := snd fn in
  if cnNext <? 1 then None else
  let c := eatws inp (S c) in
  let head := cur_node + cnNext in
  if MAX_NODES <=? head then None else
  Some ({| g_nodes := if g_nodes g <? head + 1 then head + 1 else g_nodes g;
           g_edges := g_edges g ++ [{| e_tail := cur_node; e_head := head; e_label := label; e_features := fst fn |}] |}, c).
(** 264-278, 288-303: [item] reads an element of the list *)
Fixpoint list_loop {A} (fuel : nat) (inp : text) (item : nat -> A -> option (A * nat)) (c : nat) (a : A) : option (A * nat) :=
  match fuel with
  | O => None
  | S f =>
      if Nat.ltb (length inp) c then Some (a, c)
      else if look inp c =? ch_close then Some (a, eatws inp (S c))
      else if andb (look inp c =? ch_comma) (look inp (S c) =? ch_close) then Some (a, eatws inp (S (S c)))
      else
        let c := if look inp c =? ch_comma then eatws inp (S c) else c in
        ' (a', c') <- item c a ;; list_loop f inp item c' a'
  end.
(** ReadPLFNode (260-279) *)
Definition ReadPLFNode (inp : text) (c : nat) (cur_node : Z) (g : graph) : option (graph * nat) :=
  let g := {| g_nodes := if g_nodes g <? cur_node + 1 then cur_node + 1 else g_nodes g; g_edges := g_edges g |} in
  if negb (look inp c =? ch_open) then None else
  list_loop (S (S (length inp))) inp (fun c g => ReadPLFEdge inp c cur_node g) (eatws inp (S c)) g.
(** ReadFromPLF (283-305); with no node at all the assert compares 0 with 2^64 - 1 *)
Definition ReadFromPLF (inp : text) : option graph :=
  if negb (look inp 0 =? ch_open) then None else
  ' (r, _) <- list_loop (S (S (length inp))) inp
     (fun c gn => ' (g, c') <- ReadPLFNode inp c (snd gn) (fst gn) ;; Some ((g, snd gn + 1), c'))
     1%nat ({| g_nodes := 0; g_edges := [] |}, 0) ;;
  if snd r =? g_nodes (fst r) - 1 then Some (fst r) else None.

Record larc := { l_label : text; l_features : features; l_dist : Z }.
(** PLFtoLattice (307-325) *)
Definition PLFtoLattice (plf : text) : option (list (list larc)) :=
  g <- ReadFromPLF plf ;;
  Some (map (fun i => map (fun e => {| l_label := e_label e; l_features := e_features e; l_dist := e_head e - e_tail e |})
                          (filter (fun e => e_tail e =? Z.of_nat i) (g_edges g)))
            (seq 0 (Z.to_nat (g_nodes g - 1)))).

(** ** The printer (90-114) *)
(** SparseVector::get *)
Fixpoint get_feature (f : features) (name : text) : num :=
  match f with [] => zero | (n, v) :: r => if text_eqb n name then v else get_feature r name end.
Definition arc_text (a : larc) : text :=
  [ch_open; ch_quote] ++ Escape true (l_label a) ++ [ch_quote; ch_comma] ++
  show (get_feature (l_features a) lattice_cost) ++ [ch_comma] ++ decimal (l_dist a) ++ [ch_close; ch_comma].
(** AsPLF(lattice, true) (96-114) *)
Definition AsPLF (lat : list (list larc)) : text :=
  match lat with
  | [] => [ch_open; ch_close]
  | _ => [ch_open] ++ flat_map (fun arcs => [ch_open] ++ flat_map arc_text arcs ++ [ch_close; ch_comma]) lat ++ [ch_close]
  end.
(** lattice.cc 41-43: (line.size() > 5) && line starts with "((('" *)
Definition LooksLikePLF (line : text) : bool :=
  andb (Nat.ltb 5 (length line)) (text_eqb (firstn 4 line) [ch_open; ch_open; ch_open; ch_quote]).
End Numbers.
