(** Specification vocabulary for phrase-based translation. *)
From Coq Require Import List Arith ZArith Bool.
From Verif Require Import HG Deriv TopoSpec Pb.
Import ListNotations.
Local Open Scope nat_scope.

(** Positions of the lattice: the words [ws] lead from [i] to [j]. *)
Inductive spells (lattice : list (list (Z * nat))) : nat -> list Z -> nat -> Prop :=
| sp_nil i : spells lattice i [] i
| sp_arc i arcs w d ws j : nth_error lattice i = Some arcs -> In (w, d) arcs -> spells lattice (i + d) ws j -> spells lattice i (w :: ws) j.
Definition sentence (ws : list Z) : list (list (Z * nat)) := map (fun w => [(w, 1)]) ws.
(** Arcs go forward and not past the end. *)
Definition forward (lattice : list (list (Z * nat))) : Prop := forall i arcs w d, nth_error lattice i = Some arcs -> In (w, d) arcs -> 0 < d /\ i + d <= length lattice.

(** Which positions are translated. *)
Definition covered (C : list bool) (i j : nat) : list bool := map (fun k => nth k C false || ((i <=? k) && (k <? j))) (seq 0 (length C)).
Definition first_open (C : list bool) (k : nat) : Prop := nth_error C k = Some false /\ forall m, m < k -> nth_error C m = Some true.
Definition all_open (C : list bool) (i j : nat) : Prop := forall k, i <= k < j -> nth_error C k = Some false.

Section S.
Context {R : Type}.
(** Phrases translated one after the other: [route lattice table D C ps] if the phrases [ps] - from, to, rule - cover [C]. Each phrase starts at most [D]
    positions behind the first one open, and covers open positions. *)
Inductive route (lattice : list (list (Z * nat))) (table : list (list Z * R)) (D : nat) : list bool -> list (nat * nat * R) -> Prop :=
| r_start : route lattice table D (repeat false (length lattice)) []
| r_step C ps gap i j r ws :
    route lattice table D C ps -> first_open C gap -> gap <= i <= gap + D -> all_open C i j -> spells lattice i ws j -> In (ws, r) table ->
    route lattice table D (covered C i j) (ps ++ [(i, j, r)]).
(** The phrases of a derivation, from left to right. *)
Definition said (g : hg (plabel R)) (t : tree) : list (nat * nat * R) :=
  flat_map (fun e => match nth_error (edges g) e with
                     | Some ed => match lab ed with Phrase i j r => [(i, j, r)] | _ => [] end
                     | None => []
                     end) (tree_edges t).
(** The phrase table with the words that are no entry of it passed through. *)
Definition with_words (pass : Z -> R) (table : list (list Z * R)) (ws : list Z) : list (list Z * R) :=
  table ++ map (fun w => ([w], pass w)) (filter (fun w => negb (existsb (fun p => match fst p with [v] => Z.eqb v w | _ => false end) table)) (nodup Z.eq_dec ws)).
(** The forest, if any, has a derivation for each way to translate the lattice, and no other. *)
Definition all_ways (lattice : list (list (Z * nat))) (table : list (list Z * R)) (D : nat) (res : option (hg (plabel R))) : Prop :=
  match res with
  | None => forall ps, ~ route lattice table D (repeat true (length lattice)) ps
  | Some g => wf_hg g /\ topo g /\ (exists ps, route lattice table D (repeat true (length lattice)) ps) /\
      forall ps, route lattice table D (repeat true (length lattice)) ps <-> exists t, derives g (length (nodes g) - 1) t /\ said g t = ps
  end.
(** No way to translate has two derivations. *)
Definition once (res : option (hg (plabel R))) : Prop :=
  match res with
  | None => True
  | Some g => forall t t', derives g (length (nodes g) - 1) t -> derives g (length (nodes g) - 1) t' -> said g t = said g t' -> t = t'
  end.
End S.
