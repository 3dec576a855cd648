(** decoder/ff_ruleshape.h, ff_ruleshape.cc: features named after the shape of a rule (the first class) and after the classes of its words
    (the second).  Features are named by their text: the dictionary of features takes every name. *)
From Coq Require Import String Ascii List Arith ZArith Bool.
From Verif Require Import Opt.
Import ListNotations.
Open Scope string_scope.
Open Scope opt_scope.
Local Open Scope nat_scope.

(** ** RuleShapeFeatures *)
(** ff_ruleshape.h 19-23 *)
Inductive node := Node (fid : option string) (next0 next1 : option node).
Definition empty : node := Node None None None.
Definition next (n : node) (b : bool) : option node := match n with Node _ f t => if b then t else f end.
Definition fid (n : node) : option string := match n with Node s _ _ => s end.
(** ff_ruleshape.cc 13-20 *)
Definition IsBitSet (i bit : nat) : bool := Nat.testbit i bit.
Definition BitAsChar (b : bool) : string := if b then "1" else "0".
(** 22-44: the path made and the name put at its end *)
Fixpoint put (path : list bool) (name : string) (n : node) : node :=
  match path, n with
  | [], Node _ f t => Node (Some name) f t
  | b :: p, Node s f t =>
      let child := put p name (match next n b with Some c => c | None => empty end) in
      if b then Node s f (Some child) else Node s (Some child) t
  end.
Definition bits5 (i : nat) : list bool := map (IsBitSet i) (seq 0 5).
Definition chars (bs : list bool) : string := fold_right (fun b r => BitAsChar b ++ r) "" bs.
Definition fidtree : node :=
  fold_left (fun n i => fold_left (fun n j => put (bits5 i ++ bits5 j)%list ("Shape_S" ++ chars (bits5 i) ++ "_T" ++ chars (bits5 j)) n) (seq 0 32) n) (seq 0 32) empty.
(** ff_ruleshape.h 25-29; NULL is [None], and so is what is read through it *)
Definition Advance (cur : option node) (b : bool) : option node := n <- cur ;; next n b.
(** 61, 87 *)
Fixpoint consume (l : list Z) : list Z := match l with s :: r => if (0 <? s)%Z then consume r else l | [] => [] end.
(** 54-76 and 81-102: words are positive; [words_at]: whether words are expected at an even or at an odd position; [None]: NULL read, BAD RULE
    or out of fuel *)
Fixpoint side (fuel : nat) (words_at : nat -> bool) (cur : option node) (pos : nat) (l : list Z) : option (option node * nat) :=
  match l, fuel with
  | [], _ => Some (cur, pos)
  | _, O => None
  | sym :: r, S k =>
      _ <- cur ;;
      if words_at pos then
        if (0 <? sym)%Z then side k words_at (Advance cur true) (S pos) (consume l) else side k words_at (Advance cur false) (S pos) l
      else if (sym <? 1)%Z then side k words_at (Advance cur true) (S pos) r else None
  end.
(** 77-79, 103-105: [None]: the assertion fails *)
Fixpoint pad (n : nat) (cur : option node) : option node := match n with O => cur | S k => _ <- cur ;; pad k (Advance cur false) end.
Definition upto (limit : nat) (s : option (option node * nat)) : option (option node) :=
  ' (cur, pos) <- s ;; if pos <=? limit then Some (pad (limit - pos) cur) else None.
(** 46-108: the feature set to 1 *)
Definition RuleShape (f e : list Z) : option string :=
  cur <- upto 5 (side (2 * length f) Nat.even (Some fidtree) 0 f) ;;
  cur' <- upto 10 (side (2 * length e) Nat.odd cur 5 e) ;;
  n <- cur' ;; fid n.

(** ** RuleShapeFeatures2 *)
(** The vector of classes by word is a list of pairs of texts, the newest first.  153-162 *)
Definition AddWordToClassMapping (pfx : nat) (f t : string) (pv : list (string * string)) : list (string * string) :=
  (f, if (pfx =? 0) then t else if pfx <? String.length t then substring 0 pfx t else t) :: pv.
(** 182-205: lines as lists of words; [None]: abort *)
Fixpoint load_lines (pfx : nat) (ls : list (list string)) (pv : list (string * string)) : option (list (string * string)) :=
  match ls with
  | [] => Some pv
  | [c; w] :: r | [c; w; _] :: r => load_lines pfx r (AddWordToClassMapping pfx w c pv)
  | _ => None
  end.
Definition LoadWordClasses (pfx : nat) (ls : list (list string)) : option (list (string * string)) :=
  load_lines pfx ls (AddWordToClassMapping 0 "</s>" "</s>" (AddWordToClassMapping 0 "<s>" "<s>" [])).
(** a word, or [None] for a variable or a category; ff_ruleshape.h 51-65 *)
Fixpoint find_class (pv : list (string * string)) (w : string) : option string :=
  match pv with [] => None | (w', c) :: r => if String.eqb w w' then Some c else find_class r w end.
Definition Map (pv : list (string * string)) (s : option string) : string :=
  match s with None => "NT" | Some w => match find_class pv w with Some c => c | None => "<unk>" end end.
(** the tables for the two sides; [None]: has_src_ or has_trg_ is false *)
Record config := { f2class : option (list (string * string)); e2class : option (list (string * string)) }.
(** 228-231, 235-238: i and '_' *)
Fixpoint under (l : list string) : string := match l with [] => "" | [s] => s | s :: r => s ++ "_" ++ under r end.
(** 216-223: the steps down the tree *)
Definition mapped (t : option (list (string * string))) (l : list (option string)) : list string :=
  match t with Some pv => map (Map pv) l | None => [] end.
(** 225-240 *)
Definition new_name (c : config) (f e : list (option string)) : string :=
  "RS:" ++ (match f2class c with Some _ => under (mapped (f2class c) f) ++ (match e2class c with Some _ => "__" | None => "" end) | None => "" end)
        ++ (match e2class c with Some _ => under (mapped (e2class c) e) | None => "" end).
Fixpoint find_path (t : list (list string * string)) (p : list string) : option string :=
  match t with [] => None | (q, s) :: r => if list_eq_dec string_dec p q then Some s else find_path r p end.
(** 207-243: the tree as a list of paths with names; the tree after and the feature set to 1 *)
Definition RuleShape2 (c : config) (tree : list (list string * string)) (f e : list (option string)) : list (list string * string) * string :=
  let path := (mapped (f2class c) f ++ mapped (e2class c) e)%list in
  match find_path tree path with
  | Some s => (tree, s)
  | None => ((path, new_name c f e) :: tree, new_name c f e)
  end.
(** the tree after the rules *)
Definition after_rules (c : config) (rs : list (list (option string) * list (option string))) : list (list string * string) :=
  fold_left (fun t r => fst (RuleShape2 c t (fst r) (snd r))) rs [].
