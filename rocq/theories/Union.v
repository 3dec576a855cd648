(** decoder/hg_union.cc: the union of two forests whose nodes are identified by node_hash.
    A forest is a hypergraph with the list of the hashes of its nodes. The label of an edge is what of the rule is compared,
    the rest which is copied (hg.h 106-109), the features and the probability. The calls with the same object for both (33) are left out.
    [None]: an access out of bounds. *)
From Coq Require Import List Arith ZArith Bool.
From Verif Require Import Opt HG Topo.
Import ListNotations.
Local Open Scope nat_scope.
Open Scope opt_scope.

Record ulab (X F W : Type) := { u_e : list Z; u_f : list Z; u_rest : X; u_feats : F; u_prob : W }.
Arguments u_e {X F W}. Arguments u_f {X F W}. Arguments u_rest {X F W}. Arguments u_feats {X F W}. Arguments u_prob {X F W}.
Inductive uresult (A : Type) := Aborted | Joined (a : A).
Arguments Aborted {A}. Arguments Joined {A}.

Section U.
Context {X F W : Type}.
(** whether no value of the difference exceeds 1e-6, 27-29 *)
Variable close : F -> F -> bool.
(** prob_t() *)
Variable no_prob : W.
Notation L := (ulab X F W).
Definition forest := (hg L * list Z)%type.

Definition eq_words (a b : list Z) : bool := if list_eq_dec Z.eq_dec a b then true else false.
(** 24-25 *)
Fixpoint same_hashes (ha hb : list Z) (ta tb : list nat) : option bool :=
  match ta, tb with
  | a :: ra, b :: rb => x <- nth_error ha a ;; y <- nth_error hb b ;; if Z.eqb x y then same_hashes ha hb ra rb else Some false
  | [], _ => Some true
  | _ :: _, [] => None
  end.
(** 18-31 *)
Definition EdgesMatch (ha hb : list Z) (a b : edge L) : option bool :=
  if negb (length (tails a) =? length (tails b)) then Some false
  else if negb (eq_words (u_e (lab a)) (u_e (lab b))) then Some false
  else if negb (eq_words (u_f (lab a)) (u_f (lab b))) then Some false
  else s <- same_hashes ha hb (tails a) (tails b) ;; if s then Some (close (u_feats (lab a)) (u_feats (lab b))) else Some false.

(** hg.cc 23-29 *)
Fixpoint unique (hs : list Z) : bool := match hs with [] => true | h :: r => negb (if in_dec Z.eq_dec h r then true else false) && unique r end.

(** h2n: the last entry for a hash is the first in the list; a missing one is 0. *)
Definition table := list (Z * nat).
Fixpoint count (m : table) (h : Z) : bool := match m with [] => false | (k, _) :: r => if Z.eqb k h then true else count r h end.
Fixpoint at_ (m : table) (h : Z) : nat := match m with [] => 0 | (k, v) :: r => if Z.eqb k h then v else at_ r h end.
(** 53-54 *)
Fixpoint index_nodes (ns : list node) (hs : list Z) (m : table) : table :=
  match ns, hs with nd :: rn, h :: rh => index_nodes rn rh ((h, nid nd) :: m) | _, _ => m end.
(** 55-61 *)
Fixpoint add_nodes (ns : list node) (hs : list Z) (out : forest) (m : table) : option (forest * table) :=
  match ns, hs with
  | nd :: rn, h :: rh =>
      if count m h then add_nodes rn rh out m
      else g1 <- AddNode (cat nd) (fst out) ;; add_nodes rn rh (g1, snd out ++ [h]) ((h, length (nodes (fst out))) :: m)
  | _, _ => Some (out, m)
  end.
(** 73-78 *)
Fixpoint edge_exists (hin hout : list Z) (out : hg L) (a : edge L) (oes : list nat) : option bool :=
  match oes with
  | [] => Some false
  | e :: r => b <- nth_error (edges out) e ;; s <- EdgesMatch hin hout a b ;; if s then Some true else edge_exists hin hout out a r
  end.
Fixpoint hashes_of (hs : list Z) (ts : list nat) : option (list Z) :=
  match ts with [] => Some [] | t :: r => h <- nth_error hs t ;; l <- hashes_of hs r ;; Some (h :: l) end.
(** hg.h 332-339, 50: everything but the probability is copied *)
Definition copied (l : L) : L := {| u_e := u_e l; u_f := u_f l; u_rest := u_rest l; u_feats := u_feats l; u_prob := no_prob |}.
(** 70-92 *)
Fixpoint add_edges (hin hout : list Z) (m : table) (gin : hg L) (h : Z) (es : list nat) (out : hg L) : option (hg L) :=
  match es with
  | [] => Some out
  | e :: r =>
      a <- nth_error (edges gin) e ;;
      nd <- nth_error (nodes out) (at_ m h) ;;
      x <- edge_exists hin hout out a (in_edges nd) ;;
      if x : bool then add_edges hin hout m gin h r out
      else
        th <- hashes_of hin (tails a) ;;
        g1 <- AddEdge (map (at_ m) th) (copied (lab a)) out ;;
        g2 <- ConnectPtr (length (edges out)) (at_ m h) g1 ;;
        add_edges hin hout m gin h r g2
  end.
(** 65-97 *)
Fixpoint add_all (hin hout : list Z) (m : table) (gin : hg L) (ns : list node) (hs : list Z) (out : hg L) : option (hg L) :=
  match ns, hs with
  | nd :: rn, h :: rh => g <- add_edges hin hout m gin h (in_edges nd) out ;; add_all hin hout m gin rn rh g
  | _, _ => Some out
  end.
(** TopologicallySortNodesAndEdges moves whole nodes, with their hashes and categories: the nodes are numbered
    to find out which went where. *)
Fixpoint number (i : nat) (ns : list node) : list node :=
  match ns with [] => [] | nd :: r => {| nid := nid nd; cat := Z.of_nat i; in_edges := in_edges nd; out_edges := out_edges nd |} :: number (S i) r end.
Definition back (ns : list node) (nd : node) : node :=
  {| nid := nid nd; cat := match nth_error ns (Z.to_nat (cat nd)) with Some o => cat o | None => 0%Z end; in_edges := in_edges nd; out_edges := out_edges nd |}.
Definition sorted (goal : nat) (g : hg L) (hs : list Z) : option (uresult forest) :=
  match TopoSort goal None {| nodes := number 0 (nodes g); edges := edges g |} with
  | Sorted g' => hs' <- hashes_of hs (map (fun nd => Z.to_nat (cat nd)) (nodes g')) ;; Some (Joined ({| nodes := map (back (nodes g)) (nodes g'); edges := edges g' |}, hs'))
  | CycleFound => Some Aborted
  | _ => None
  end.
(** 32-104 *)
Definition Union (input out : forest) : option (uresult forest) :=
  match nodes (fst out) with
  | [] => Some (Joined input)
  | n0 :: _ =>
      if negb (unique (snd input)) then Some Aborted
      else if negb (unique (snd out)) then Some Aborted
      else
        hi <- nth_error (snd input) (length (snd input) - 1) ;;
        ho <- nth_error (snd out) (length (snd out) - 1) ;;
        if negb (Z.eqb ho hi) then Some Aborted
        else
          let cgoal := nid (last (nodes (fst out)) n0) in
          ' (out1, m) <- add_nodes (nodes (fst input)) (snd input) out (index_nodes (nodes (fst out)) (snd out) []) ;;
          g <- add_all (snd input) (snd out1) m (fst input) (nodes (fst input)) (snd input) (fst out1) ;;
          sorted cgoal g (snd out1)
  end.
End U.
