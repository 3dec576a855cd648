(** Specification vocabulary for the compound splitter. *)
From Coq Require Import List ZArith.
From Verif Require Import Opt HG Deriv TopoSpec PruneSpec Rule Parser Constrain ConstrainSpec.
Import ListNotations.
Local Open Scope nat_scope.

(** A character in UTF-8: a byte below 128, or a first byte which tells the number of bytes and
    continuation bytes. *)
Inductive utf8 : list nat -> Prop :=
| u1 b : b < 128 -> utf8 [b]
| u2 x y : x < 32 -> y < 64 -> utf8 [192 + x; 128 + y]
| u3 x y z : x < 16 -> y < 64 -> z < 64 -> utf8 [224 + x; 128 + y; 128 + z]
| u4 x y z w : x < 8 -> y < 64 -> z < 64 -> w < 64 -> utf8 [240 + x; 128 + y; 128 + z; 128 + w].

(** A piece of the word: its characters, and what is left without the linking element if that is
    taken off, with its feature. *)
Notation piece := (list (list nat) * option (list nat * Z))%type.

Section S.
Variables (fugS fugN : Z).
(** [linking w s f]: [s] is [w] without its linking element ("es" or "s", and "n" after "e"), which
    leaves at least four bytes; [f] is the feature which tells which one. *)
Inductive linking : list nat -> list nat -> Z -> Prop :=
| l_es s : 4 <= length s -> linking (s ++ [101; 115]) s fugS
| l_s s : 4 <= length s -> ~ (exists r, s = r ++ [101] /\ 4 <= length r) -> linking (s ++ [115]) s fugS
| l_en s : 4 <= length s -> linking (s ++ [101; 110]) (s ++ [101]) fugN.

(** [ps] splits the word: pieces of at least three characters, or the whole word; the
    linking element may be taken off every piece but the last. *)
Definition splits (chars : list (list nat)) (ps : list piece) : Prop :=
  concat (map fst ps) = chars /\
  (forall p, In p ps -> 3 <= length (fst p) \/ ps = [p]) /\
  (forall qs p, ps = qs ++ [p] -> snd p = None) /\
  (forall cs a f, In (cs, Some (a, f)) ps -> linking (concat cs) a f).

Variables (conv : list nat -> Z) (hash : Z).
(** The words and the features of a splitting. *)
Definition as_is (p : piece) : Z := conv (concat (fst p)).
Definition stem (p : piece) : Z := match snd p with None => conv (concat (fst p)) | Some (a, _) => conv a end.
Definition feature (p : piece) : list (Z * Z) := match snd p with None => [] | Some (_, f) => [(f, 1%Z)] end.
Definition features (g : hg (elab (Z * Z))) (t : tree) : list (Z * Z) :=
  flat_map (fun e => match nth_error (edges g) e with Some ed => feats_ (lab ed) | None => [] end) (tree_edges t).
(** The derivation translates the pieces, after "#", to their stems. *)
Definition reads (g : hg (elab (Z * Z))) (t : tree) (ps : list piece) : Prop :=
  source g t = Some (hash :: map as_is ps) /\ translation g t = Some (hash :: map stem ps) /\ features g t = flat_map feature ps.
End S.
