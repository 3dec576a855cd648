(** The shape of a rule, and the classes of its symbols. *)
From Coq Require Import String Ascii List Arith ZArith Bool.
Import ListNotations.
Open Scope string_scope.

(** a text with words (positive) and variables: whether there are words before the first variable, a first variable, words after it, a
    second variable, words after that *)
Definition words (l : list Z) : Prop := Forall (fun z => (0 < z)%Z) l.
Definition some {A} (l : list A) : bool := match l with [] => false | _ => true end.
Inductive shape : list Z -> list bool -> Prop :=
| shape0 a : words a -> shape a [some a; false; false; false; false]
| shape1 a v b : words a -> (v <= 0)%Z -> words b -> shape (a ++ v :: b) [some a; true; some b; false; false]
| shape2 a v b w c : words a -> (v <= 0)%Z -> words b -> (w <= 0)%Z -> words c -> shape (a ++ v :: b ++ w :: c) [some a; true; some b; true; some c].
Definition variables (l : list Z) : nat := length (filter (fun z => (z <=? 0)%Z) l).

(** The class of a word by the lines (class, word, perhaps a count) of a file: by the last line for the word, cut to [pfx] letters unless
    that is 0; without a line the marks of the sentence are their own class *)
Definition line_for (w : string) (l : list string) : Prop := exists c n, l = c :: w :: n /\ (length n <= 1)%nat.
Definition cut (pfx : nat) (c : string) : string := if Nat.eqb pfx 0 then c else substring 0 pfx c.
Inductive class_of (pfx : nat) (file : list (list string)) (w : string) : string -> Prop :=
| by_line before c n after : file = (before ++ (c :: w :: n) :: after)%list -> Forall (fun l => ~ line_for w l) after -> class_of pfx file w (cut pfx c)
| by_mark : Forall (fun l => ~ line_for w l) file -> w = "<s>" \/ w = "</s>" -> class_of pfx file w w
| unknown : Forall (fun l => ~ line_for w l) file -> w <> "<s>" -> w <> "</s>" -> class_of pfx file w "<unk>".
Definition sym_class (pfx : nat) (file : list (list string)) (s : option string) (c : string) : Prop :=
  match s with None => c = "NT" | Some w => class_of pfx file w c end.
