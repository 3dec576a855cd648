(** Specification vocabulary for k-best extraction. *)
From Coq Require Import List Arith Permutation.
From Verif Require Import HG Deriv KBest.
Import ListNotations.

Section S.
Context {P W Y : Type}.
Variable g : hg P.
Variable leb : W -> W -> bool.
Variable traverse : edge P -> list Y -> Y.
Variable dflt : Y.
(** The yield of a derivation. *)
Fixpoint tree_yield (t : tree) : Y :=
  match t with
  | Tree e ts => match nth_error (edges g) e with Some ed => traverse ed (map tree_yield ts) | None => dflt end
  end.
(** Non-increasing. *)
Definition descending (wt : tree -> W) (L : list tree) : Prop :=
  forall i j a b, i < j -> nth_error L i = Some a -> nth_error L j = Some b -> leb (wt b) (wt a) = true.
End S.

(** [leb] is a total preorder in which the product is monotone. *)
Record ordered {W : Type} (leb : W -> W -> bool) (times : W -> W -> W) : Prop := {
  o_total : forall a b, leb a b = true \/ leb b a = true;
  o_trans : forall a b c, leb a b = true -> leb b c = true -> leb a c = true;
  o_mono : forall a b c d, leb a b = true -> leb c d = true -> leb (times a c) (times b d) = true
}.
(** What the C++ library promises of the heap functions and nth_element;
    [isheap] is the heap order. *)
Record heap_functions {W : Type} (leb : W -> W -> bool) (isheap : list (deriv W) -> Prop) (hpop : list (deriv W) -> option (deriv W * list (deriv W)))
    (hpush : list (deriv W) -> deriv W -> list (deriv W)) (hmake : nat -> list (deriv W) -> list (deriv W)) : Prop := {
  h_empty : isheap [];
  h_pop : forall l, l <> [] -> isheap l -> exists d r, hpop l = Some (d, r) /\ isheap r /\ Permutation l (d :: r) /\ forall x, In x r -> leb (score x) (score d) = true;
  h_push : forall l d, isheap l -> isheap (hpush l d) /\ Permutation (hpush l d) (d :: l);
  h_make : forall n l, n <= length l -> isheap (hmake n l) /\ exists r, Permutation l (hmake n l ++ r) /\ length (hmake n l) = n /\
    forall x y, In x (hmake n l) -> In y r -> leb (score y) (score x) = true
}.
(** Every tail of a listed edge has a derivation. *)
Definition productive {P} (g : hg P) : Prop :=
  forall n nd e ed t, nth_error (nodes g) n = Some nd -> In e (in_edges nd) -> nth_error (edges g) e = Some ed -> In t (tails ed) -> exists s, derives g t s.
