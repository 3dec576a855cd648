(** decoder/csplit.cc: the compound splitter.  A string is its list of bytes.  The dictionary is
    a function [conv] from strings to ids (TD::Convert, C01).  A feature vector is the list of
    its entries.  Rule objects are numbered by the edge they are made for.  Left out: edge
    probabilities (Reweight), node hashes, the source lattice of the sentence's metadata.  [int]
    is unbounded.  [None]: an access out of bounds, a failed assertion or an abort. *)
From Coq Require Import List ZArith Bool.
From Verif Require Import Opt HG Rule Parser Constrain.
Import ListNotations.
Open Scope opt_scope.
Local Open Scope nat_scope.

(** utils/stringlib.h 295-303 *)
Definition UTF8Len (x : nat) : nat :=
  if x <? 128 then 1
  else if x / 32 =? 6 then 2
  else if x / 16 =? 14 then 3
  else if x / 8 =? 30 then 4
  else if x / 4 =? 62 then 5
  else if x / 2 =? 126 then 6
  else 0.
(** csplit.cc 126-138, from position i on; substr stops at the end of the string *)
Fixpoint split_loop (fuel : nat) (rest : list nat) : option (list (list nat)) :=
  match rest, fuel with
  | [], _ => Some []
  | _ :: _, O => None
  | x :: _, S fuel =>
      let len := UTF8Len x in
      if len =? 0 then None else out <- split_loop fuel (skipn len rest) ;; Some (firstn len rest :: out)
  end.
Definition SplitUTF8String (input : list nat) : option (list (list nat)) := split_loop (length input) input.

Section Csplit.
Variable conv : list nat -> Z.
(** 15-25: the categories, the word "#" and the two features *)
Variables kXCAT kGOALCAT kHASH kFUGEN_S kFUGEN_N : Z.
Definition min_size_ : nat := 3.
Notation label := (elab (Z * Z)).
Definition an_edge (r : trule) (fs : list (Z * Z)) (i j : Z) : label :=
  {| rule_ := r; feats_ := fs; i_ := i; j_ := j; prev_i_ := -1; prev_j_ := -1 |}.
(** 19, 21; hg.h 49-52: the positions are -1 until they are set *)
Definition kWORDBREAK_RULE : label := an_edge (TR None [kHASH] [kHASH] 0 None) [] (-1) (-1).
Definition kGOAL_RULE : label := an_edge (TR None [0%Z] [kXCAT] 1 None) [] (-1) (-1).
(** 20, 67-69, 96-97: the template with the words filled in *)
Definition template (addr : nat) (e f : Z) : trule := TR (Some addr) [0%Z; e] [kXCAT; f] 1 None.

(** 29-43; an access behind the end would be undefined *)
Fixpoint paste (chars : list (list nat)) (k i : nat) : option (list nat) :=
  match k with
  | O => Some []
  | S k => c <- nth_error chars i ;; r <- paste chars k (S i) ;; Some (c ++ r)
  end.
Definition PasteTogetherStrings (chars : list (list nat)) (i j : nat) : option (list nat) := paste chars (j - i) i.

(** yield[len-1] and yield[len-2] *)
Definition at_end (yield : list nat) (k : nat) : option nat := nth_error yield (length yield - k).
(** 82-94: the shortened string with its feature, if there is one; 's' = 115, 'e' = 101, 'n' = 110 *)
Definition fugen (yield : list nat) : option (option (list nat * Z)) :=
  let len := length yield in
  let ends2 a b := x <- at_end yield 1 ;; if x =? b then (y <- at_end yield 2 ;; Some (y =? a)) else Some false in
  c1 <- (if min_size_ + 2 <? len then ends2 101 115 else Some false) ;;
  if c1 : bool then Some (Some (firstn (len - 2) yield, kFUGEN_S)) else
  c2 <- (if min_size_ + 1 <? len then x <- at_end yield 1 ;; Some (x =? 115) else Some false) ;;
  if c2 : bool then Some (Some (firstn (len - 1) yield, kFUGEN_S)) else
  c3 <- (if min_size_ + 2 <? len then ends2 101 110 else Some false) ;;
  if c3 : bool then Some (Some (firstn (len - 1) yield, kFUGEN_N)) else Some None.

(** AddEdge and ConnectEdgeToHeadNode *)
Definition add_edge (ts : list nat) (l : label) (h : nat) (g : hg label) : option (hg label) :=
  g1 <- AddEdge ts l g ;; Connect (length (edges g)) h g1.
(** 62-108: the body of the inner loop *)
Definition span (chars : list (list nat)) (nodes_ : list (option nat)) (i j : nat) (g : hg label) : option (hg label) :=
  nj <- nth_error nodes_ j ;;
  match nj with
  | None => Some g
  | Some nj =>
      yield <- PasteTogetherStrings chars i j ;;
      ni <- nth_error nodes_ i ;;
      ni <- ni ;;
      g1 <- add_edge [ni] (an_edge (template (length (edges g)) (conv yield) (conv yield)) [] (Z.of_nat i) (Z.of_nat j)) nj g ;;
      if j =? length chars then Some g1 else
      alt <- fugen yield ;;
      match alt with
      | None => Some g1
      | Some (alt, fid) =>
          if length alt =? 0 then Some g1 else
          add_edge [ni] (an_edge (template (length (edges g1)) (conv alt) (conv yield)) [(fid, 1%Z)] (Z.of_nat i) (Z.of_nat j)) nj g1
      end
  end.
(** 61-109; [js] from start to the number of characters *)
Fixpoint spans (chars : list (list nat)) (nodes_ : list (option nat)) (i : nat) (js : list nat) (g : hg label) : option (hg label) :=
  match js with [] => Some g | j :: r => g1 <- span chars nodes_ i j g ;; spans chars nodes_ i r g1 end.
(** 58-110 *)
Fixpoint starts (chars : list (list nat)) (nodes_ : list (option nat)) (is : list nat) (g : hg label) : option (hg label) :=
  match is with
  | [] => Some g
  | i :: r =>
      ni <- nth_error nodes_ i ;;
      match ni with
      | None => starts chars nodes_ r g
      | Some _ =>
          let start := Nat.min (i + min_size_) (length chars) in
          g1 <- spans chars nodes_ i (seq start (S (length chars) - start)) g ;;
          starts chars nodes_ r g1
      end
  end.
(** nodes[i] = forest->AddNode(kXCAT)->id_ *)
Definition new_node (i : nat) (s : list (option nat) * hg label) : option (list (option nat) * hg label) :=
  let '(nodes_, g) := s in
  g1 <- AddNode kXCAT g ;; ns <- upd nodes_ i (fun _ => Some (length (nodes g))) ;; Some (ns, g1).
Fixpoint new_nodes (is : list nat) (s : list (option nat) * hg label) : option (list (option nat) * hg label) :=
  match is with [] => Some s | i :: r => s1 <- new_node i s ;; new_nodes r s1 end.
(** 51 (in int: max(n - 3 + 1, 1)) *)
Definition max_split_ (chars : list (list nat)) : nat := Nat.max (length chars + 1 - min_size_) 1.
(** 45-117 *)
Definition BuildTrellis (chars : list (list nat)) : option (hg label) :=
  let n := length chars in
  s <- new_node 0 (repeat None (n + 1), empty_hg) ;;
  let '(ns, g) := s in
  g <- add_edge [] kWORDBREAK_RULE 0 g ;;
  s <- new_nodes (seq min_size_ (max_split_ chars - min_size_)) (ns, g) ;;
  let '(ns, g) := s in
  b <- nth_error ns n ;;
  match b with
  | Some _ => None
  | None =>
      s <- new_node n (ns, g) ;;
      let '(ns, g) := s in
      g <- starts chars ns (seq 0 (max_split_ chars)) g ;;
      let last := length (nodes g) - 1 in
      g1 <- AddNode kGOALCAT g ;;
      g2 <- AddEdge [last] kGOAL_RULE g1 ;;
      ConnectPtr (length (edges g1)) (length (nodes g)) g2
  end.
(** 140-158; ' ' = 32 *)
Definition TranslateImpl (input : list nat) : option (hg label) :=
  if existsb (Nat.eqb 32) input then None else chars <- SplitUTF8String input ;; BuildTrellis chars.

(** 160-175 *)
Fixpoint longest (g : hg label) (es : list nat) (max_edge : option nat) (max_j : Z) : option (option nat) :=
  match es with
  | [] => Some max_edge
  | e :: r => ed <- nth_error (edges g) e ;; let j := j_ (lab ed) in
      if (max_j <? j)%Z then longest g r (Some e) j else longest g r max_edge max_j
  end.
Definition GetFullWordEdgeIndex (g : hg label) : option nat :=
  n0 <- nth_error (nodes g) 0 ;; e <- longest g (out_edges n0) None (-1) ;; e.
End Csplit.
