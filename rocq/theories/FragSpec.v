(** Trees, the texts which write them, and how the nodes of a fragment represent them. *)
From Coq Require Import String Ascii List Arith Bool.
From Verif Require Import Frag.
Import ListNotations.
Local Open Scope nat_scope.

Inductive tree := Tree (nt : text) (kids : list item)
with item := Word (w : text) | Site (w : text) | Sub (t : tree).

Definition plain (c : ascii) : Prop := c <> " "%char /\ c <> "("%char /\ c <> ")"%char.
(** the texts which can be words: not empty, without blank and bracket, not of the form [x] *)
Definition good_word (w : text) : Prop :=
  w <> [] /\ Forall plain w /\ ~ (exists x, x <> [] /\ w = ["["%char] ++ x ++ ["]"%char]).
Definition token_of (it : item) (w : text) : Prop :=
  match it with
  | Word x => w = x /\ good_word x
  | Site x => w = ["["%char] ++ x ++ ["]"%char] /\ x <> [] /\ Forall plain x
  | Sub _ => False
  end.
Definition blanks (n : nat) : text := repeat " "%char n.
(** a text writes a tree: "(", the label, the children, ")", any blanks anywhere in between, at least one between two tokens *)
Inductive writes : tree -> text -> Prop :=
| w_tree nt kids n s : Forall plain nt -> (nt = [] -> kids = [] \/ exists t r, kids = Sub t :: r) ->
    writes_items true kids s -> writes (Tree nt kids) (["("%char] ++ blanks n ++ nt ++ s ++ [")"%char])
with writes_items : bool -> list item -> text -> Prop :=
| w_nil b n : writes_items b [] (blanks n)
| w_token b n it w kids s : (b = true -> 1 <= n) -> token_of it w -> writes_items true kids s ->
    writes_items b (it :: kids) (blanks n ++ w ++ s)
| w_sub b n t w kids s : writes t w -> writes_items false kids s ->
    writes_items b (Sub t :: kids) (blanks n ++ w ++ s).

(** the text with one blank before every child *)
Fixpoint print (t : tree) : text :=
  match t with
  | Tree nt kids => ["("%char] ++ nt ++
      concat (map (fun it => [" "%char] ++ match it with Word w => w | Site w => ["["%char] ++ w ++ ["]"%char] | Sub s => print s end) kids) ++ [")"%char]
  end.
(** labels and words which can be written *)
Fixpoint wf (t : tree) : Prop :=
  match t with
  | Tree nt kids => nt <> [] /\ Forall plain nt /\
      (fix go (l : list item) : Prop := match l with
        | [] => True
        | Word w :: r => good_word w /\ go r
        | Site w :: r => (w <> [] /\ Forall plain w) /\ go r
        | Sub s :: r => wf s /\ go r end) kids
  end.
(** number of nodes, words and sites *)
Fixpoint size (t : tree) : nat :=
  match t with Tree _ kids => S (list_sum (map (fun it => match it with Sub s => size s | _ => 0 end) kids)) end.
Fixpoint words (t : tree) : list (list ascii) :=
  match t with Tree _ kids => concat (map (fun it => match it with Word w => [w] | Site _ => [] | Sub s => words s end) kids) end.
Fixpoint sites (t : tree) : list (list ascii) :=
  match t with Tree _ kids => concat (map (fun it => match it with Word _ => [] | Site w => [w] | Sub s => sites s end) kids) end.
(** how many words and sites are below *)
Definition width (t : tree) : nat := length (words t) + length (sites t).
Definition item_width (it : item) : nat := match it with Sub s => width s | _ => 1 end.

(** the nodes from number [lo] on represent the tree, children before their parent; the root is the last *)
Inductive shows (ns : list (option (list ascii * list sym))) : nat -> tree -> Prop :=
| sh lo nt rhs kids : nth_error ns (lo + size (Tree nt kids) - 1) = Some (Some (nt, rhs)) -> shows_all ns lo rhs kids -> shows ns lo (Tree nt kids)
with shows_all (ns : list (option (list ascii * list sym))) : nat -> list sym -> list item -> Prop :=
| sh_nil lo : shows_all ns lo [] []
| sh_word lo w r k : shows_all ns lo r k -> shows_all ns lo (Term w :: r) (Word w :: k)
| sh_site lo w r k : shows_all ns lo r k -> shows_all ns lo (Front w :: r) (Site w :: k)
| sh_sub lo t r k : shows ns lo t -> shows_all ns (lo + size t) r k -> shows_all ns lo (Node (lo + size t - 1) :: r) (Sub t :: k).

(** depth first: the label as left side; then the children, a subtree first as a symbol of the right side *)
Fixpoint walk (t : tree) : list tsym :=
  match t with
  | Tree nt kids => L nt :: concat (map (fun it => match it with Word w => [T w] | Site w => [F w]
      | Sub s => R (match s with Tree nt' _ => nt' end) :: walk s end) kids)
  end.

(** [s] is a subtree of [t] with [n] nodes of other subtrees, in this order, and [l] words and sites of [t] before it *)
Inductive below : tree -> nat -> nat -> tree -> Prop :=
| b_here t : below t 0 0 t
| b_down nt kids1 t0 kids2 n l s : below t0 n l s ->
    below (Tree nt (kids1 ++ Sub t0 :: kids2))
      (list_sum (map (fun it => match it with Sub x => size x | _ => 0 end) kids1) + n) (list_sum (map item_width kids1) + l) s.
