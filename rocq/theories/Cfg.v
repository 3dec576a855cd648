(** decoder/hg_io.cc, HypergraphIO::WriteAsCFG (327-376): a forest written as a grammar in which the nodes are the categories, with the
    source and the target side exchanged.  The rules before they are printed (AsString, C37); [None]: an access outside of a vector.
    Left out: the span and the parent rule kept with the rule. *)
From Coq Require Import String List ZArith Bool.
From Verif Require Import Opt RuleFf.
Import ListNotations.
Open Scope opt_scope.
Local Open Scope Z_scope.

Section Cfg.
(** feature values *)
Variable X : Type.
(** an edge with its rule: words are positive, a variable of the target side is minus its number, one of the source side not positive *)
Record edge := { head : nat; tails : list nat; tgt : list Z; src : list Z; feats : X }.
Inductive gsym := Word (w : Z) | Nt (c : string).
Record grule := { lhs : string; gf : list gsym; ge : list Z; scores : X }.
(** 332-337; [cat]: the text of the category if cat_ is negative *)
Definition cat_text (cat : option string) (i : nat) : string := ((match cat with Some c => c | None => "CAT" end) ++ "_" ++ show i)%string.
Definition cats (nodes : list (option string)) : list string := map (fun ci => cat_text (fst ci) (snd ci)) (combine nodes (seq 0 (length nodes))).
(** 351-361: f and tn; [n]: the size of tn *)
Fixpoint tgt_loop (cs : list string) (tl : list nat) (n : nat) (t : list Z) : option (list gsym * list Z) :=
  match t with
  | [] => Some ([], [])
  | cur :: t' =>
      if 0 <? cur then ' (f, tn) <- tgt_loop cs tl n t' ;; Some (Word cur :: f, tn)
      else match n with
           | O => None
           | S n' => v <- nth_error tl (Z.to_nat (- cur)) ;; c <- nth_error cs v ;; ' (f, tn) <- tgt_loop cs tl n' t' ;; Some (Nt c :: f, cur :: tn)
           end
  end.
(** 362-370: e *)
Fixpoint src_loop (s : list Z) (tn : list Z) : option (list Z) :=
  match s with
  | [] => Some []
  | cur :: s' =>
      if 0 <? cur then e <- src_loop s' tn ;; Some (cur :: e)
      else match tn with [] => None | k :: tn' => e <- src_loop s' tn' ;; Some (k :: e) end
  end.
(** 340-374 *)
Definition write_edge (cs : list string) (ed : edge) : option grule :=
  l <- nth_error cs (head ed) ;;
  ' (f, tn) <- tgt_loop cs (tails ed) (length (tails ed)) (tgt ed) ;;
  e <- src_loop (src ed) (tn ++ repeat 0 (length (tails ed) - length tn)) ;;
  Some {| lhs := l; gf := f; ge := e; scores := feats ed |}.
Fixpoint write_edges (cs : list string) (es : list edge) : option (list grule) :=
  match es with [] => Some [] | ed :: r => g <- write_edge cs ed ;; gs <- write_edges cs r ;; Some (g :: gs) end.
Definition WriteAsCFG (nodes : list (option string)) (es : list edge) : option (list grule) := write_edges (cats nodes) es.
End Cfg.
Arguments head {X}. Arguments tails {X}. Arguments tgt {X}. Arguments src {X}. Arguments feats {X}. Arguments lhs {X}. Arguments gf {X}. Arguments ge {X}. Arguments scores {X}.
Arguments WriteAsCFG {X}. Arguments write_edges {X}. Arguments write_edge {X}. Arguments Build_edge {X}. Arguments Build_grule {X}.
