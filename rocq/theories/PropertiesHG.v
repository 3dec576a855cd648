(** C12: hypergraphs built through AddNode, AddEdge, ConnectEdgeToHeadNode. *)
From Coq Require Import List Arith ZArith.
From Verif Require Import HG HGProofs.
Import ListNotations.

(** Nodes and edges are numbered by position and hold exactly what was asked
    for; a node lists the edges connected to it, in order, and the edges it is
    a tail of, once per occurrence, in order, and nothing else. *)
Theorem C12_built_as_asked : forall (P : Type) (cs : list (call P)) (g : hg P), run cs empty_hg = Some g ->
  length (nodes g) = length (h_nodes cs) /\ length (edges g) = length (h_edges cs) /\
  (forall n nd, nth_error (nodes g) n = Some nd ->
     nid nd = n /\ nth_error (h_nodes cs) n = Some (cat nd) /\
     in_edges nd = into n (h_conns cs) /\ out_edges nd = outof n 0 (h_edges cs)) /\
  (forall e ed, nth_error (edges g) e = Some ed -> eid ed = e /\ nth_error (h_edges cs) e = Some (tails ed, lab ed)).
Proof. exact @build_agrees. Qed.
Print Assumptions C12_built_as_asked.

(** If no edge is connected twice, the two directions agree: an edge is listed
    once, by its head; each tail occurrence is listed once, by that tail; every
    index is in range. *)
Theorem C12_consistent : forall (P : Type) (cs : list (call P)) (g : hg P),
  run cs empty_hg = Some g -> NoDup (map fst (h_conns cs)) ->
  (forall n nd, nth_error (nodes g) n = Some nd -> nid nd = n) /\
  (forall e ed, nth_error (edges g) e = Some ed -> eid ed = e) /\
  (forall n nd e ed, nth_error (nodes g) n = Some nd -> nth_error (edges g) e = Some ed ->
     count_occ Nat.eq_dec (out_edges nd) e = count_occ Nat.eq_dec (tails ed) n) /\
  (forall n nd e ed, nth_error (nodes g) n = Some nd -> nth_error (edges g) e = Some ed ->
     (In (e, n) (h_conns cs) -> head ed = Some n /\ count_occ Nat.eq_dec (in_edges nd) e = 1) /\
     (~ In (e, n) (h_conns cs) -> ~ In e (in_edges nd))) /\
  (forall n nd e, nth_error (nodes g) n = Some nd -> In e (in_edges nd) \/ In e (out_edges nd) -> e < length (edges g)) /\
  (forall e ed t, nth_error (edges g) e = Some ed -> In t (tails ed) -> t < length (nodes g)) /\
  (forall e h, In (e, h) (h_conns cs) -> e < length (edges g) /\ h < length (nodes g)).
Proof. exact @build_consistent. Qed.
Print Assumptions C12_consistent.

(** A call with indices of existing nodes and edges never goes out of bounds. *)
Theorem C12_calls_defined : forall (P : Type) (cs : list (call P)) (g : hg P) c,
  run cs empty_hg = Some g -> call_ok c g -> exists g', run1 c g = Some g'.
Proof. exact @build_total. Qed.
Print Assumptions C12_calls_defined.

(** Connecting an edge a second time leaves it listed by its former head. *)
Theorem C12_connect_twice_refuted : exists (cs : list (call nat)) g n nd e ed,
  run cs empty_hg = Some g /\ nth_error (nodes g) n = Some nd /\ nth_error (edges g) e = Some ed /\
  In e (in_edges nd) /\ head ed <> Some n.
Proof.
  exists [CNode 1%Z; CNode 2%Z; CEdge [] 7; CConnect 0 0; CConnect 0 1].
  eexists. exists 0. eexists. exists 0. eexists. split; [reflexivity|]. split; [reflexivity|].
  split; [reflexivity|]. cbn. split; [left; reflexivity|discriminate].
Qed.
Print Assumptions C12_connect_twice_refuted.

Definition ex_calls : list (call nat) :=
  [CNode 1%Z; CEdge [] 10; CConnect 0 0; CNode 2%Z; CEdge [0; 0] 20; CConnectPtr 1 1;
   CCopy {| head := None; tails := [0]; lab := 30; eid := 99 |}; CConnectEdgePtr 2 1].
Example C12_ex : option_map (fun g => map (fun n => (in_edges n, out_edges n)) (nodes g)) (run ex_calls empty_hg)
  = Some [([0], [1; 1; 2]); ([1; 2], [])] /\ NoDup (map fst (h_conns ex_calls)).
Proof. split; [reflexivity|]. cbn. repeat constructor; cbn; intuition discriminate. Qed.
