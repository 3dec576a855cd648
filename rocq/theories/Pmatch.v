(** decoder/ff_parse_match.cc: how far spans are from the constituents of a source tree.  [None]: an assertion, an abort, or memory read or
    written outside of a table.  Left out: exponential scoring; reading of the file with the tree. *)
From Coq Require Import String Ascii List Arith Bool QArith.
From Verif Require Import Opt.
Import ListNotations.
Open Scope string_scope.
Open Scope nat_scope.
Open Scope opt_scope.

(** 52-103, one letter at a time: what the loops over k are reading *)
Inductive mode := Outer | Cat0 | Cat (buf : string) | Skip | Word | Spaces.
Definition grid := (nat -> nat -> string)%type.
(** cur_cat: None at the beginning, where first = -1 *)
Record state := { md : mode; stk : list (option (nat * string)); cur : option (nat * string); pos : nat; tree_ : grid }.
Definition set (g : grid) (i j : nat) (l : string) : grid := fun a b => if (a =? i) && (b =? j) then l else g a b.
Section Length.
Variable src_len : nat.
(** 70-82: one closing bracket *)
Definition close (s : state) : option state :=
  match cur s, stk s with
  | Some (i, l), c :: st => if (i <? src_len) && (pos s <? src_len + 1) then Some {| md := Skip; stk := st; cur := c; pos := pos s; tree_ := set (tree_ s) i (pos s) l |} else None
  | _, _ => None
  end.
(** 92-94: one more word *)
Definition word (s : state) (m : mode) : option state :=
  if S (pos s) <=? src_len then Some {| md := m; stk := stk s; cur := cur s; pos := S (pos s); tree_ := tree_ s |} else None.
Definition with_mode (s : state) (m : mode) : state := {| md := m; stk := stk s; cur := cur s; pos := pos s; tree_ := tree_ s |}.
Definition blank (c : ascii) : bool := Ascii.eqb c " " || Ascii.eqb c "009".
(** 60-89 *)
Definition outer (s : state) (c : ascii) : option state :=
  if Ascii.eqb c "(" then Some {| md := Cat0; stk := cur s :: stk s; cur := cur s; pos := pos s; tree_ := tree_ s |}
  else if Ascii.eqb c ")" then close s
  else if blank c then None
  else Some (with_mode s Word).
Definition category (s : state) (l : string) : state := {| md := Outer; stk := stk s; cur := Some (pos s, l); pos := pos s; tree_ := tree_ s |}.
Definition step (s : state) (c : ascii) : option state :=
  match md s with
  | Outer => outer s c
  | Cat0 => Some (with_mode s (Cat (String c "")))
  | Cat buf => if Ascii.eqb c " " then Some (category s buf) else Some (with_mode s (Cat (buf ++ String c "")))
  | Skip => if blank c then Some s else outer s c
  | Word => if Ascii.eqb c ")" then (s' <- word s Outer ;; outer s' c) else if Ascii.eqb c " " then word s Spaces else Some s
  | Spaces => if Ascii.eqb c " " then Some s else if Ascii.eqb c ")" then outer s c else Some (with_mode s Word)
  end.
Fixpoint run (s : state) (t : string) : option state :=
  match t with EmptyString => Some s | String c r => s' <- step s c ;; run s' r end.
(** 43-50, 101: the table of labels, XX where there is none *)
Definition InitializeGrids (tree : string) : option grid :=
  match tree with
  | EmptyString => None
  | _ =>
      s <- run {| md := Outer; stk := []; cur := None; pos := 0; tree_ := fun _ _ => "XX" |} tree ;;
      s' <- (match md s with Word => word s Outer | _ => Some s end) ;;
      if pos s' =? src_len then Some (tree_ s') else None
  end.
Variable src_tree : grid.
(** width is src_len, height src_len + 1; a column below zero is a large number without sign *)
Definition found (l r : nat) : bool := (l <? src_len) && (r <? src_len + 1) && negb (String.eqb (src_tree l r) "XX").
(** 118-148: for one number of words, and from one number on, [n] numbers being left; [found] with no column where i - l is below zero *)
Definition near (i j k : nat) : bool :=
  existsb (fun l => ((l <=? i) && found (i - l) (j + (k - l))) || found (i + l) (j - (k - l))) (seq 0 (k + 1)).
Fixpoint search (i j n k : nat) (min_dist : option nat) : option nat :=
  match n with O => min_dist | S n' => if near i j k then Some k else search i j n' (k + 1) (Some k) end.
(** 105-149: None: the variable is not set; lhs is read outside of the table for i = src_len *)
Definition min_dist (i j : nat) : option nat :=
  if negb (String.eqb (src_tree i j) "XX") then Some 0 else search i j (j - i - 1) 1 None.
(** 150-181: the feature by scoring method, with the distances of the antecedents *)
Inductive method := Binary | Linear | Relative.
Definition PM (m : method) (i j : nat) (ants : list nat) : option Q :=
  if (length ants <=? 8) && (i <? src_len) && (j <? src_len + 1) then
    d <- min_dist i j ;;
    Some (match m with
          | Binary => if d + list_sum ants =? 0 then 1 else 0
          | Linear => 1 / inject_Z (Z.of_nat (d + 1))
          | Relative => inject_Z (Z.of_nat ((j - i) / ((j - i) + d)))
          end)%Q
  else None.
End Length.
