(** decoder/tree_fragment.h, tree_fragment.cc: trees read from text, printed and traversed.
    A text is a list of characters.  [Abort]: the program stops with a message; [Undef]: it reads outside of the text or of a vector.
    Symbols are texts with a kind instead of numbers with a bit (numbers of words below 2^28; C01 is about the numbers).
    Left out: the limits of [unsigned short] and [short] (fewer than 32768 words, fewer than 65536 nodes), the breadth first iterator,
    remainder and truncate. *)
From Coq Require Import String Ascii List Arith Bool.
From Verif Require Import Opt.
Import ListNotations.
Open Scope opt_scope.
Local Open Scope nat_scope.

Notation text := (list ascii) (only parsing).
Inductive res (A : Type) := Ok (a : A) | Abort | Undef | Fuel.
Arguments Ok {A} _. Arguments Abort {A}. Arguments Undef {A}. Arguments Fuel {A}.
Definition rbind {A B} (x : res A) (k : A -> res B) : res B :=
  match x with Ok a => k a | Abort => Abort | Undef => Undef | Fuel => Fuel end.

(** a symbol on a right side: a terminal, a frontier site, the number of a node *)
Inductive sym := Term (w : text) | Front (w : text) | Node (i : nat).
Notation node := (list ascii * list sym)%type (only parsing).
(** np, nodes, frontier_sites, terminals *)
Record state := { np : nat; nodes : list (option node); frontier_sites : nat; terminals : nat }.

Definition is (c d : ascii) : bool := Ascii.eqb c d.
Definition stop (c : ascii) : bool := is c " " || is c "(" || is c ")".
(** while (tree[cp] == ' ') ++cp *)
Fixpoint skip (t : text) : res text := match t with [] => Undef | c :: r => if is c " " then skip r else Ok t end.
(** the same with cp < tree.size() (tree_fragment.cc 134); the character after the last is looked at, whatever it is *)
Fixpoint skip_end (t : text) : text := match t with [] => [] | c :: r => if is c " " then skip_end r else t end.
(** while (tree[cp] != ' ' && tree[cp] != '(' && tree[cp] != ')') ++cp *)
Fixpoint token (t : text) : res (text * text) :=
  match t with [] => Undef | c :: r => if stop c then Ok ([], t) else rbind (token r) (fun wr => Ok (c :: fst wr, snd wr)) end.
(** tree_fragment.cc 104: the token is [ ... ] with something inside *)
Definition is_terminal (w : text) : bool :=
  negb (is (hd " "%char w) "[") || (length w <? 3) || negb (is (last w " "%char) "]").
(** tree.substr(t_start + 1, t_end - t_start - 2) *)
Definition inside (w : text) : text := removelast (tl w).
(** nodes[np] = … *)
Fixpoint put (l : list (option node)) (i : nat) (n : node) : option (list (option node)) :=
  match l, i with
  | [], _ => None
  | _ :: r, O => Some (Some n :: r)
  | x :: r, S i' => r' <- put r i' n ;; Some (x :: r')
  end.
(** TreeFragment::ParseRec (77-138); the first function from the opening bracket, the second the loop 91-117 *)
Fixpoint ParseRec (fuel : nat) (afs : bool) (t : text) (s : state) {struct fuel} : res (text * state) :=
  match fuel with
  | O => Fuel
  | S k =>
      match t with
      | [] => Undef
      | c :: t0 =>
          if is c "(" then
            rbind (skip t0) (fun t1 => rbind (token t1) (fun nt => rbind (skip (snd nt)) (fun t2 =>
            rbind (ParseRhs k afs t2 s []) (fun '(rhs, t3, s') =>
            match put (nodes s') (np s') (fst nt, rhs) with
            | None => Undef
            | Some ns => Ok (skip_end (tl t3), {| np := np s' + 1; nodes := ns; frontier_sites := frontier_sites s'; terminals := terminals s' |})
            end))))
          else Abort
      end
  end
with ParseRhs (fuel : nat) (afs : bool) (t : text) (s : state) (rhs : list sym) {struct fuel} : res (list sym * text * state) :=
  match fuel with
  | O => Fuel
  | S k =>
      match t with
      | [] => Undef
      | c :: _ =>
          if is c ")" then Ok (rhs, t, s)
          else if is c "(" then
            rbind (ParseRec k afs t s) (fun '(t1, s1) => ParseRhs k afs t1 s1 (rhs ++ [Node (np s1 - 1)]))
          else
            rbind (token t) (fun '(w, t1) => rbind (skip t1) (fun t2 =>
            if is_terminal w then
              ParseRhs k afs t2 {| np := np s; nodes := nodes s; frontier_sites := frontier_sites s; terminals := terminals s + 1 |} (rhs ++ [Term w])
            else if afs then
              ParseRhs k afs t2 {| np := np s; nodes := nodes s; frontier_sites := frontier_sites s + 1; terminals := terminals s |} (rhs ++ [Front (inside w)])
            else Abort))
      end
  end.
(** 16-27: the brackets; [None]: stopped.  bal may become negative: [bal] + 1 here *)
Fixpoint brackets (t : text) (bal1 open : nat) : option nat :=
  match t with
  | [] => Some open
  | c :: r =>
      if is c "(" then brackets r (S bal1) (S open)
      else if is c ")" then
        let b := bal1 - 1 in
        if (b <? 2) && negb (match r with [] => true | _ => false end) then None else brackets r b open
      else brackets r bal1 open
  end.
(** SetupSpansRec (53-66): what it returns, and the spans set, in order *)
Fixpoint SetupSpansRec (fuel : nat) (ns : list (option node)) (cur left_ : nat) : option (nat * list (nat * (nat * nat))) :=
  match fuel with
  | O => None
  | S k =>
      n <- nth_error ns cur ;; n' <- n ;;
      ' (right_, sp) <- (fix go (rhs : list sym) (right_ : nat) : option (nat * list (nat * (nat * nat))) :=
          match rhs with
          | [] => Some (right_, [])
          | Node i :: r => ' (right1, sp1) <- SetupSpansRec k ns i right_ ;; ' (right2, sp2) <- go r right1 ;; Some (right2, sp1 ++ sp2)
          | _ :: r => go r (right_ + 1)
          end) (snd n') left_ ;;
      Some (right_, sp ++ [(cur, (left_, right_))])
  end.
Record fragment := { f_nodes : list (option node); f_frontier : nat; f_terminals : nat; f_spans : list (nat * (nat * nat)) }.
(** the constructor (11-33); [fs0], [ts0]: what is in frontier_sites and terminals before, they are not set *)
Definition TreeFragment (fs0 ts0 : nat) (t : text) (allow_frontier_sites : bool) : res fragment :=
  match brackets t 1 0 with
  | None => Abort
  | Some open =>
      rbind (ParseRec (S (length t)) allow_frontier_sites t {| np := 0; nodes := repeat None open; frontier_sites := fs0; terminals := ts0 |}) (fun '(_, s) =>
      if allow_frontier_sites then Ok {| f_nodes := nodes s; f_frontier := frontier_sites s; f_terminals := terminals s; f_spans := [] |}
      else match SetupSpansRec (S open) (nodes s) (open - 1) 0 with
           | None => Undef
           | Some (_, sp) => Ok {| f_nodes := nodes s; f_frontier := frontier_sites s; f_terminals := terminals s; f_spans := sp |}
           end)
  end.

(** DebugRec (35-50), operator<< (tree_fragment.h 290-293) *)
Fixpoint DebugRec (fuel : nat) (ns : list (option node)) (cur : nat) : option text :=
  match fuel with
  | O => None
  | S k =>
      n <- nth_error ns cur ;; n' <- n ;;
      out <- (fix go (rhs : list sym) : option text :=
          match rhs with
          | [] => Some []
          | x :: r =>
              w <- match x with Front w => Some (["["%char] ++ w ++ ["]"%char]) | Node i => DebugRec k ns i | Term w => Some w end ;;
              ws <- go r ;; Some ([" "%char] ++ w ++ ws)
          end) (snd n') ;;
      Some (["("%char] ++ fst n' ++ out ++ [")"%char])
  end.
Definition show (f : fragment) : option text := DebugRec (S (length (f_nodes f))) (f_nodes f) (length (f_nodes f) - 1).

(** ** The depth first iterator (tree_fragment.h 102-186) *)
(** what it points to *)
Inductive tsym := L (w : text) | R (w : text) | T (w : text) | F (w : text).
(** TFIState (91-99); [next]: rhspos + 1; [started]: state is 1 *)
Record frame := { fnode : nat; next : nat; started : bool }.
Definition get (ns : list (option node)) (i : nat) : option node := n <- nth_error ns i ;; n.
(** Stage (165-177); the top of the stack is the head of the list.  The stack and the symbol, which is unchanged at the end *)
Definition Stage (ns : list (option node)) (q : list frame) (sym0 : tsym) : option (list frame * tsym) :=
  match q with
  | [] => Some ([], sym0)
  | s :: _ =>
      n <- get ns (fnode s) ;;
      if started s then
        x <- nth_error (snd n) (next s - 1) ;;
        match x with
        | Node i => m <- get ns i ;; Some ({| fnode := i; next := 0; started := false |} :: q, R (fst m))
        | Term w => Some (q, T w)
        | Front w => Some (q, F w)
        end
      else Some (q, L (fst n))
  end.
(** 137-143 *)
Fixpoint pop (ns : list (option node)) (q : list frame) : option (list frame) :=
  match q with
  | [] => Some []
  | s :: r =>
      n <- get ns (fnode s) ;;
      if next s <? length (snd n) then Some ({| fnode := fnode s; next := next s + 1; started := started s |} :: r) else pop ns r
  end.
(** operator++ (126-148) *)
Definition inc (ns : list (option node)) (q : list frame) (sym0 : tsym) : option (list frame * tsym) :=
  match q with
  | [] => None
  | s :: r =>
      if started s then q' <- pop ns q ;; Stage ns q' sym0
      else ' (q', x) <- Stage ns q sym0 ;; Some (match q' with [] => [] | s' :: r' => {| fnode := fnode s'; next := next s'; started := true |} :: r' end, x)
  end.
(** begin(node_idx) (110-114) *)
Definition begin_ (ns : list (option node)) (i : nat) : option (list frame * tsym) :=
  ' (_, x) <- Stage ns [{| fnode := i; next := 0; started := false |}] (T []) ;; Some ([{| fnode := i; next := 0; started := true |}], x).
(** the symbols from an iterator to the end *)
Fixpoint collect (fuel : nat) (ns : list (option node)) (q : list frame) (x : tsym) : option (list tsym) :=
  match fuel with
  | O => None
  | S k => match q with [] => Some [] | _ => ' (q', x') <- inc ns q x ;; l <- collect k ns q' x' ;; Some (x :: l) end
  end.
Definition dfs (fuel : nat) (ns : list (option node)) : option (list tsym) :=
  ' (q, x) <- begin_ ns (length ns - 1) ;; collect fuel ns q x.
(** Terminals (68-73) *)
Definition Terminals (fuel : nat) (ns : list (option node)) : option (list (list ascii)) :=
  l <- dfs fuel ns ;; Some (concat (map (fun x => match x with T w => [w] | _ => [] end) l)).
