(** What the rules of a tree-to-string grammar match in an input tree. *)
From Coq Require Import Ascii List Arith Bool.
From Verif Require Import Frag FragSpec.
Import ListNotations.
Local Open Scope nat_scope.

Definition label (t : tree) : list ascii := match t with Tree nt _ => nt end.
Definition item_nodes (it : item) : nat := match it with Sub s => size s | _ => 0 end.
(** the tree [c] is the tree whose nodes are numbered from [lo] on, with some subtrees replaced by a site with their label; the
    numbers of the nodes of these subtrees, from left to right *)
Inductive cut : nat -> tree -> tree -> list nat -> Prop :=
| c_tree lo nt kids kids' ts : cut_items lo kids kids' ts -> cut lo (Tree nt kids) (Tree nt kids') ts
with cut_items : nat -> list item -> list item -> list nat -> Prop :=
| c_nil lo : cut_items lo [] [] []
| c_word lo w k k' ts : cut_items lo k k' ts -> cut_items lo (Word w :: k) (Word w :: k') ts
| c_site lo s k k' ts : cut_items (lo + size s) k k' ts -> cut_items lo (Sub s :: k) (Site (label s) :: k') (lo + size s - 1 :: ts)
| c_sub lo s s' k k' ts1 ts2 : cut lo s s' ts1 -> cut_items (lo + size s) k k' ts2 -> cut_items lo (Sub s :: k) (Sub s' :: k') (ts1 ++ ts2).
(** node [h] of the input tree is the root of a subtree, [c] is a part of it from the root, [ts] are the nodes where it stops *)
Definition part (t : tree) (h : nat) (c : tree) (ts : list nat) : Prop :=
  exists lo l s, below t lo l s /\ h = lo + size s - 1 /\ cut lo s c ts.
Definition tsym_dec (a b : tsym) : {a = b} + {a <> b}.
Proof. decide equality; apply (list_eq_dec ascii_dec). Defined.
(** the rules of the grammar whose fragment has the depth first walk *)
Definition fits {A} (g : list (tree * A)) (p : list tsym) : list A :=
  map snd (filter (fun fr => if list_eq_dec tsym_dec (walk (fst fr)) p then true else false) g).
(** the nodes which have to be translated: the root, and where a rule which fits stops *)
Inductive needed {A} (t : tree) (gs : list (list (tree * A))) : nat -> Prop :=
| n_root : needed t gs (size t - 1)
| n_rule h c ts g n : needed t gs h -> part t h c ts -> In g gs -> fits g (walk c) <> [] -> In n ts -> needed t gs n.
(** every label has its number of children *)
Fixpoint ranked (rank : list ascii -> nat) (t : tree) : Prop :=
  match t with Tree nt kids => length kids = rank nt /\
    (fix go (l : list item) : Prop := match l with [] => True | Sub s :: r => ranked rank s /\ go r | _ :: r => go r end) kids end.

(** a node has a derivation with the edges ([e]: head and tails) *)
Inductive derivable (es : list (nat * list nat)) : nat -> Prop :=
| der h ts : In (h, ts) es -> Forall (derivable es) ts -> derivable es h.
