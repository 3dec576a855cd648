(** Derivations of forests and of synchronous grammars. *)
From Coq Require Import String List ZArith Bool.
From Verif Require Import Cfg.
Import ListNotations.
Local Open Scope Z_scope.

(** an edge or a rule by its number, and what is derived from its tails or from its nonterminals *)
Inductive tree := D (i : nat) (kids : list tree).
(** [Some w]: a word, [None]: a gap; the gaps filled in order *)
Fixpoint in_order (shape : list (option Z)) (parts : list (list Z)) : option (list Z) :=
  match shape, parts with
  | [], [] => Some []
  | Some w :: r, _ => match in_order r parts with Some l => Some (w :: l) | None => None end
  | None :: r, p :: ps => match in_order r ps with Some l => Some (p ++ l) | None => None end
  | _, _ => None
  end.
(** 0, -1, -2, … stand for the parts *)
Fixpoint numbered (e : list Z) (parts : list (list Z)) : option (list Z) :=
  match e with
  | [] => Some []
  | w :: r =>
      match (if 0 <? w then Some [w] else nth_error parts (Z.to_nat (- w))), numbered r parts with
      | Some p, Some l => Some (p ++ l)
      | _, _ => None
      end
  end.
Definition word_or_gap (z : Z) : option Z := if 0 <? z then Some z else None.
(** the tree derives from the node the two texts: the source side filled in the order of the tails, the target side by number.
    [ks]: for every tail the tree, the node and the texts *)
Inductive fderiv {X} (es : list (edge X)) : tree -> nat -> list Z -> list Z -> Prop :=
| fd i ed (ks : list (tree * nat * (list Z * list Z))) s u : nth_error es i = Some ed ->
    Forall (fun k => fderiv es (fst (fst k)) (snd (fst k)) (fst (snd k)) (snd (snd k))) ks -> map (fun k => snd (fst k)) ks = tails ed ->
    in_order (map word_or_gap (src ed)) (map (fun k => fst (snd k)) ks) = Some s -> numbered (tgt ed) (map (fun k => snd (snd k)) ks) = Some u ->
    fderiv es (D i (map (fun k => fst (fst k)) ks)) (head ed) s u.
(** the same for a grammar, with categories *)
Definition nts (f : list gsym) : list string := flat_map (fun s => match s with Nt c => [c] | Word _ => [] end) f.
Definition gap (s : gsym) : option Z := match s with Word w => Some w | Nt _ => None end.
Inductive gderiv {X} (gs : list (grule X)) : tree -> string -> list Z -> list Z -> Prop :=
| gd i r (ks : list (tree * string * (list Z * list Z))) s u : nth_error gs i = Some r ->
    Forall (fun k => gderiv gs (fst (fst k)) (snd (fst k)) (fst (snd k)) (snd (snd k))) ks -> map (fun k => snd (fst k)) ks = nts (gf r) ->
    in_order (map gap (gf r)) (map (fun k => fst (snd k)) ks) = Some s -> numbered (ge r) (map (fun k => snd (snd k)) ks) = Some u ->
    gderiv gs (D i (map (fun k => fst (fst k)) ks)) (lhs r) s u.

(** the category made for a node: the name of its category and its number *)
Definition label (nodes : list (option string)) (v : nat) : string := cat_text (nth v nodes None) v.
(** the numbers of the variables of the target side, in order *)
Definition vars (e : list Z) : list nat := flat_map (fun w => if 0 <? w then [] else [Z.to_nat (- w)]) e.
(** the subtrees in the order in which the target side has their variables *)
Fixpoint swap {X} (es : list (edge X)) (t : tree) : tree :=
  match t with
  | D i kids => D i (map (fun k => nth k (map (swap es) kids) t) (match nth_error es i with Some ed => vars (tgt ed) | None => [] end))
  end.
(** an edge of a forest with [n] nodes: the source side has a gap for every tail, the target side has every variable once, and a variable
    and its position can be exchanged *)
Definition good_edge {X} (n : nat) (ed : edge X) : Prop :=
  (head ed < n)%nat /\ Forall (fun v => (v < n)%nat) (tails ed) /\
  length (filter (fun z => negb (0 <? z)) (src ed)) = length (tails ed) /\
  length (vars (tgt ed)) = length (tails ed) /\
  forall k m, nth_error (vars (tgt ed)) k = Some m -> nth_error (vars (tgt ed)) m = Some k.

(** ** For the examples *)
(** Four nodes; the words 1, 2, 3 and their translations 11, 12, 13. *)
Definition leaf (v : nat) (s u : Z) : edge nat := {| head := v; tails := []; tgt := [u]; src := [s]; feats := v |}.
Definition forest3 (e : list Z) : list (edge nat) :=
  [leaf 0 1 11; leaf 1 2 12; leaf 2 3 13; {| head := 3; tails := [0; 1; 2]%nat; tgt := e; src := [-5; -5; -5]; feats := 7%nat |}].
Definition nodes3 : list (option string) := [Some "X"; Some "X"; Some "X_1"; None]%string.
